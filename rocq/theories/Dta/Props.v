(** dtastar.hpp: the result, the values that are stored, the goals that local searches expand. *)
From stdpp Require Import prelude.
From Coq Require Import ZArith Lia ZifyBool ZifyNat QArith Qabs Lqa.
From Verif Require Import Common.Orders BinHeap.Model BinHeap.Proofs.
From Verif Require Import Search.Domain Search.Model Search.Props Rta.Model.
From Verif Require Import Dta.Model Dta.Proofs.
Local Open Scope Z_scope.

(** ** What a step does *)
Lemma backups_exp D x ps : ∀ m ns q m' ns' q', backups D x ps m ns q = Some (m', ns', q') → g_exp m' = g_exp m.
Proof.
  induction ps as [|[p c] ps IH]; intros m ns q m' ns' q'; cbn [backups]; [by intros [= <- <- <-]|].
  destruct (find_t D ns p) as [j|]; [|by apply IH]. destruct (ns !! j) as [sp|]; [|done]. cbn [mbind option_bind].
  destruct (t_cl sp && _); [|by apply IH].
  destruct (pushupdate _ _ _ _) as [q1|]; [|done]. cbn [mbind option_bind]. intros H. apply IH in H. done.
Qed.
Lemma lloop_exp D fuel : ∀ m ns q n m', lloop D fuel m ns q n = Some m' → g_exp m' = g_exp m.
Proof.
  induction fuel as [|fuel IH]; intros m ns q n m'; cbn [lloop]; [done|].
  case_decide; [by intros [= <-]|]. destruct (empty q); [by intros [= <-]|].
  destruct (pop qsort q) as [[q1 [i|]]|]; [|done..]. cbn [mbind option_bind].
  destruct (ns !! i) as [sn|]; [|done]. cbn [mbind option_bind].
  destruct (backups _ _ _ _ _ _) as [[[m1 ns1] q2]|] eqn:E; [|done]. cbn [mbind option_bind].
  apply backups_exp in E. intros Hl. apply IH in Hl. congruence.
Qed.
Lemma learns_exp D fuel ts is : ∀ m m', learns D fuel m ts is = Some m' → g_exp m' = g_exp m.
Proof.
  induction is as [|i is IH]; intros m m'; cbn [learns]; [by intros [= <-]|].
  destruct (ts !! i) as [t|]; [|done]. cbn [mbind option_bind].
  destruct (learn D fuel m t) as [m1|] eqn:E; [|done]. cbn [mbind option_bind]. unfold learn in E.
  destruct (append _ _ _) as [q|]; [|done]. cbn [mbind option_bind] in E. apply lloop_exp in E. intros H. apply IH in H. congruence.
Qed.

Lemma start_finv D cur h0 m : finv D cur h0 [] m (Forest [] (new (λ _, None))).
Proof.
  split; cbn; try done; [apply new_inv|]. intros i. split; [intros H; by apply elem_of_nil in H|lia].
Qed.

Lemma step_facts D (OK : domain_ok D) lim stop go grain full fuel k cur m st m' st' o s' :
  step D lim stop go grain full fuel k cur m st = Some (m', st', o, s') → (∀ s, 0 <= g_h m s)%Q →
  ∃ m1 F i t f, finv D cur (g_h m) (ops cur) m1 F ∧ minv D cur (g_h m) m1 ∧ mle D m m1 ∧ (∀ d, near D d m → near D d m1) ∧
    f_trees F !! i = Some t ∧ fg D t = Some f ∧
    (∀ i' t' f', f_trees F !! i' = Some t' → fg D t' = Some f' → (f.1 <= f'.1)%Q) ∧
    o = l_op t ∧ s' = l_root t ∧ g_h m' cur = (f.1 * scale full)%Q ∧ g_exp m' = g_exp m1 ∧
    (full = false → ∀ s, s ≠ cur → g_h m' s = g_h m1 s).
Proof.
  intros Hs Hpos. unfold step in Hs. destruct (succs D cur m st) as [m0 st0] eqn:Es.
  apply succs_spec in Es as (Hh0 & Hc0 & Hx0).
  assert (minv D cur (g_h m) m0) as Hm0. { split; intros; rewrite Hh0; [done|lra..]. }
  destruct (plant_spec D OK cur (g_h m) (ops cur) [] m0 _ (start_finv _ _ _ _) Hm0 Hc0) as (m1 & F1 & Hp & HF1 & Hm1 & Hle1 & Hn1); [done|].
  rewrite Hp in Hs. cbn [mbind option_bind] in Hs. cbn [app] in HF1.
  destruct (rounds _ _ _ _ _ _ _ _ _ _ _ _ _) as [[[m2 F2] st2]|] eqn:Er; [|done]. cbn [mbind option_bind] in Hs.
  apply (rounds_spec D OK lim cur (g_h m)) with (os := ops cur) in Er as (HF2 & Hm2 & Hle2 & Hn2); [|done..].
  assert (mle D m m2) as Hle.
  { apply (mle_trans _ _ m1); [|done]. apply (mle_trans _ _ m0); [|done]. split; [intros; rewrite Hh0; lra|done]. }
  assert (Hn : ∀ d, near D d m → near D d m2). { intros d Hd. apply Hn2, Hn1. by apply (near_eq _ d m). }
  (* what comes after the learning *)
  assert (Hend : ∀ m3 F3, finv D cur (g_h m) (ops cur) m2 F3 → g_exp m3 = g_exp m2 → (full = false → m3 = m2) →
    (i ← front (f_lss F3); t ← f_trees F3 !! i; '(f, _) ← fg D t; Some (set_h D m3 cur (f * scale full)%Q, st2, l_op t, l_root t)) = Some (m', st', o, s') →
    ∃ i t f, f_trees F3 !! i = Some t ∧ fg D t = Some f ∧
    (∀ i' t' f', f_trees F3 !! i' = Some t' → fg D t' = Some f' → (f.1 <= f'.1)%Q) ∧
    o = l_op t ∧ s' = l_root t ∧ g_h m' cur = (f.1 * scale full)%Q ∧ g_exp m' = g_exp m2 ∧
    (full = false → ∀ s, s ≠ cur → g_h m' s = g_h m2 s)).
  { intros m3 F3 HF3 Hx3 He3. destruct (front (f_lss F3)) as [i|] eqn:Ef; [|done]. cbn [mbind option_bind].
    destruct (f_trees F3 !! i) as [t|] eqn:Et; [|done]. cbn [mbind option_bind].
    destruct (fg D t) as [[f g]|] eqn:Efg; [|done]. cbn [mbind option_bind]. intros [= <- <- <- <-].
    exists i, t, (f, g). split_and!; try done.
    - intros i' t' f' Ht' Hf'. assert (i' ∈ arr (f_lss F3)) as Hin. { apply (fi_in _ _ _ _ _ _ HF3). by apply lookup_lt_Some in Ht'. }
      pose proof (front_min lsort _ i i' lsort_sw (fi_heap _ _ _ _ _ _ HF3) Ef Hin) as Hm.
      rewrite (fi_key _ _ _ _ _ _ HF3 i t Et), (fi_key _ _ _ _ _ _ HF3 i' t' Ht'), Efg, Hf' in Hm. cbn [lsort] in Hm.
      apply fsort_false in Hm. cbn in *. destruct Hm as [?|[? _]]; lra.
    - apply set_h_eq.
    - intros Hfull s Hne. rewrite set_h_ne by done. by rewrite (He3 Hfull). }
  destruct full.
  - destruct (learns D fuel m2 (f_trees F2) (arr (f_lss F2))) as [m3|] eqn:El; [|done]. cbn [mbind option_bind] in Hs. apply learns_exp in El.
    destruct (reinit _ _) as [q|] eqn:Eq; [|done]. cbn [mbind option_bind] in Hs. apply (reinit_finv D cur (g_h m) (ops cur) m2) in Eq; [|done].
    destruct (Hend _ _ Eq El) as (i & t & f & H); [done|exact Hs|]. exists m2, (Forest (f_trees F2) q), i, t, f. split_and!; try done; apply H.
  - cbn [mbind option_bind] in Hs. destruct (Hend _ _ HF2 eq_refl) as (i & t & f & H); [done|exact Hs|]. exists m2, F2, i, t, f. split_and!; try done; apply H.
Qed.

(** ** C127: the result *)
Section result.
Context (D : domain) (lim : limits) (stop go : nat → nat → bool) (grain : nat) (full : bool) (cur : St D).
Definition moves_ok (F : forest D) : Prop := ∀ i t, f_trees F !! i = Some t → l_op t ∈ ops cur ∧ l_root t = dest cur (l_op t).

Lemma relaxes_root s i os : ∀ m t m' t', relaxes D cur s i os m t = Some (m', t') → l_root t' = l_root t ∧ l_op t' = l_op t.
Proof.
  induction os as [|o os IH]; intros m t m' t'; cbn [relaxes]; [by intros [= <- <-]|].
  destruct (edge s o) as [[k c] r]. destruct (relax D cur s i o k c m t) as [[m1 t1]|] eqn:E; [|done]. cbn [mbind option_bind].
  intros Hr. apply IH in Hr as [-> ->]. unfold relax in E. destruct (l_nodes t !! i) as [sn|]; [|done]. cbn [mbind option_bind] in E.
  destruct (decide _); [by injection E as <- <-|]. destruct (Qltb _ 0); [done|].
  destruct (match find_t D (l_nodes t) k with Some j => _ | None => _ end) as [[ns j] skip]. destruct skip; [by injection E as <- <-|].
  destruct (ns !! j) as [kn|]; [|done]. cbn [mbind option_bind] in E. destruct (_ || _); [done|].
  destruct (pushupdate _ _ _ _) as [q|]; [|done]. cbn [mbind option_bind] in E. by injection E as <- <-.
Qed.
Lemma expand1_root m t st m' t' st' : expand1 D lim cur m t st = Some (m', t', st') → l_root t' = l_root t ∧ l_op t' = l_op t.
Proof.
  unfold expand1. destruct (_ || _); [by intros [= <- <- <-]|]. destruct (rreached lim st); [by intros [= <- <- <-]|].
  destruct (pop fsort (l_open t)) as [[q [i|]]|]; [|done..]. cbn [mbind option_bind].
  destruct (l_nodes t !! i) as [sn|]; [|done]. cbn [mbind option_bind].
  destruct (isgoal (t_st sn)).
  - cbn [l_goal l_nodes]. destruct (l_goal t) as [b|]; [|done]. cbn [mbind option_bind]. destruct (_ !! b) as [bn|]; [|done]. cbn [mbind option_bind].
    destruct (decide _); [by intros [= <- <- <-]|]. destruct (Geom.Model.doubleeq _ _); [by intros [= <- <- <-]|done].
  - destruct (succs D (t_st sn) m _) as [m1 st1]. destruct (relaxes _ _ _ _ _ _ _) as [[m2 t2]|] eqn:E; [|done]. cbn [mbind option_bind].
    intros [= <- <- <-]. by apply relaxes_root in E.
Qed.
Lemma plant_moves os : ∀ m F m' F', (∀ o, o ∈ os → o ∈ ops cur) → moves_ok F → plant D cur os m F = Some (m', F') → moves_ok F'.
Proof.
  induction os as [|o os IH]; intros m F m' F' Hos HF; cbn [plant]; [by intros [= <- <-]|].
  rewrite edge_eq. destruct (Qltb _ _); [done|]. destruct (mktree _ _ _ _ _ _) as [t|] eqn:Et; [|done]. cbn [mbind option_bind].
  destruct (push _ _ _) as [q|]; [|done]. cbn [mbind option_bind]. apply IH; [intros o' Ho'; apply Hos; by right|].
  unfold mktree in Et. destruct (Qle_bool _ _); [|done]. destruct (push _ _ _) as [q'|]; [|done]. injection Et as <-.
  intros i u Hu. apply lookup_app_Some in Hu as [Hu|[_ Hu]]; [by apply (HF i)|].
  apply list_lookup_singleton_Some in Hu as [_ <-]. cbn. split; [|done]. apply Hos. left.
Qed.
Lemma expands_moves e : ∀ k j m F st m' F' st' b j', moves_ok F →
  expands D lim stop e k j cur m F st = Some (m', F', st', b, j') → moves_ok F'.
Proof.
  induction e as [|e IH]; intros k j m F st m' F' st' b j' HF; cbn [expands]; [by intros [= <- <- <- <- <-]|].
  destruct (stop k j); [by intros [= <- <- <- <- <-]|]. destruct (rreached lim st); [by intros [= <- <- <- <- <-]|].
  destruct (front (f_lss F)) as [i|]; [|done]. cbn [mbind option_bind].
  destruct (f_trees F !! i) as [t|] eqn:Et; [|done]. cbn [mbind option_bind].
  destruct (goalclosed D t); [by intros [= <- <- <- <- <-]|].
  destruct (expand1 _ _ _ _ _ _) as [[[m1 t1] st1]|] eqn:Ex; [|done]. cbn [mbind option_bind]. apply expand1_root in Ex as [Hr Ho].
  destruct (update _ _ _) as [q|]; [|done]. cbn [mbind option_bind]. apply IH. intros i' u. cbn [f_trees].
  destruct (decide (i' = i)) as [->|Hne].
  - rewrite list_lookup_insert by (by apply lookup_lt_Some in Et). intros [= <-]. rewrite Hr, Ho. by apply (HF i).
  - rewrite list_lookup_insert_ne by done. apply HF.
Qed.
Lemma keepgoing_trees k r (F : forest D) b F' : keepgoing D go k r F = Some (b, F') → f_trees F' = f_trees F.
Proof.
  unfold keepgoing. case_decide; [by intros [= <- <-]|]. destruct (pop _ _) as [[q1 [a|]]|]; [|done..]. cbn [mbind option_bind].
  destruct (pop _ q1) as [[q2 [c|]]|]; [|done..]. cbn [mbind option_bind].
  destruct (f_trees F !! a); [|done]. cbn [mbind option_bind]. destruct (f_trees F !! c); [|done]. cbn [mbind option_bind].
  destruct (push _ _ _) as [q3|]; [|done]. cbn [mbind option_bind]. destruct (push _ _ _) as [q4|]; [|done]. cbn [mbind option_bind].
  by intros [= <- <-].
Qed.
Lemma rounds_moves fuel : ∀ k r j m F st m' F' st', moves_ok F →
  rounds D lim stop go grain fuel k r j cur m F st = Some (m', F', st') → moves_ok F'.
Proof.
  induction fuel as [|fuel IH]; intros k r j m F st m' F' st' HF; [done|]. cbn [rounds].
  destruct (expands _ _ _ _ _ _ _ _ _ _) as [[[[[m1 F1] st1] ls] j1]|] eqn:Ex; [|done]. cbn [mbind option_bind].
  apply expands_moves in Ex; [|done]. destruct (rreached lim st1); [by intros [= <- <- <-]|].
  destruct (front (f_lss F1)) as [i|]; [|done]. cbn [mbind option_bind].
  destruct (f_trees F1 !! i) as [t|]; [|done]. cbn [mbind option_bind].
  destruct (l_goal t); [by intros [= <- <- <-]|]. destruct ls; [by intros [= <- <- <-]|].
  destruct (keepgoing D go k r F1) as [[b F2]|] eqn:Ek; [|done]. cbn [mbind option_bind]. apply keepgoing_trees in Ek.
  assert (moves_ok F2) as HF2. { intros i' u. rewrite Ek. apply Ex. }
  destruct b; [by apply IH|by intros [= <- <- <-]].
Qed.
Lemma step_moves fuel k m st m' st' o s' : step D lim stop go grain full fuel k cur m st = Some (m', st', o, s') → o ∈ ops cur ∧ s' = dest cur o.
Proof.
  unfold step. destruct (succs D cur m st) as [m0 st0]. destruct (plant _ _ _ _ _) as [[m1 F1]|] eqn:Ep; [|done]. cbn [mbind option_bind].
  apply plant_moves in Ep; [|done|by intros i t]. 
  destruct (rounds _ _ _ _ _ _ _ _ _ _ _ _ _) as [[[m2 F2] st2]|] eqn:Er; [|done]. cbn [mbind option_bind]. apply rounds_moves in Er; [|done].
  set (X := if full then _ else _). intros Hs.
  destruct X as [[m3 F3]|] eqn:EX; [|done]. assert (f_trees F3 = f_trees F2) as HF3.
  { unfold X in EX. destruct full; [|by injection EX as <- <-]. destruct (learns _ _ _ _ _) as [m4|]; [|done]. cbn [mbind option_bind] in EX.
    destruct (reinit _ _) as [q|]; [|done]. by injection EX as <- <-. }
  cbn [mbind option_bind] in Hs. destruct (front (f_lss F3)) as [i|]; [|done]. cbn [mbind option_bind] in Hs.
  destruct (f_trees F3 !! i) as [t|] eqn:Et; [|done]. cbn [mbind option_bind] in Hs.
  destruct (fg D t) as [[f g]|]; [|done]. cbn [mbind option_bind] in Hs. injection Hs as <- <- <- <-. rewrite HF3 in Et. by apply Er in Et.
Qed.
End result.

Lemma moves_spec D lim stop go grain full n fuel s0 : ∀ k cur m st os m' st' cur' os' ss c, walk ss os c → head ss = Some s0 → last ss = Some cur →
  moves D lim stop go grain full n fuel k cur m st os = Some (m', st', cur', os') →
  ∃ ss' c', walk ss' os' c' ∧ head ss' = Some s0 ∧ last ss' = Some cur'.
Proof.
  induction n as [|n IH]; intros k cur m st os m' st' cur' os' ss c Hw Hh Hl; [done|]. cbn [moves].
  destruct (isgoal cur); [intros [= <- <- <- <-]; eauto|]. destruct (rreached lim st); [intros [= <- <- <- <-]; eauto|].
  destruct (step _ _ _ _ _ _ _ _ _ _ _) as [[[[m1 st1] o] s']|] eqn:Es; [|done]. cbn [mbind option_bind].
  apply step_moves in Es as [Ho ->]. apply (IH _ _ _ _ _ _ _ _ _ (ss ++ [dest cur o]) (c + cost cur o)).
  - by apply walk_snoc.
  - by destruct ss.
  - by rewrite last_snoc.
Qed.
Lemma rebuild_walk D s0 ss os c : walk ss os c → head ss = Some s0 → rebuild D s0 os = ss.
Proof.
  intros Hw. revert s0. induction Hw as [s|s o ss os c Ho Hw IH]; intros s0 Hh; cbn in Hh; injection Hh as <-; [done|].
  cbn [rebuild]. by rewrite (IH _ eq_refl).
Qed.

(** What DTA-star returns is a way from the start to a goal, for any heuristic, lookahead limit, decisions of keepGoing and
    limits; if it is cut short, it returns nothing. *)
Theorem C127_result_valid D lim stop go grain full n fuel h s0 path os :
  search D lim stop go grain full n fuel h s0 = Some (path, os) →
  path = [] ∧ os = [] ∨ ∃ c, solution s0 (reverse path) (reverse os) c.
Proof.
  unfold search. destruct (moves _ _ _ _ _ _ _ _ _ _ _ _ _) as [[[[m st] cur] os1]|] eqn:Em; [|done]. cbn [mbind option_bind].
  destruct (isgoal cur) eqn:Eg; [|intros [= <- <-]; by left].
  apply (moves_spec _ _ _ _ _ _ _ _ s0 _ _ _ _ _ _ _ _ _ [s0] 0) in Em as (ss & c & Hw & Hh & Hl); [|constructor|done..].
  rewrite (rebuild_walk _ _ _ _ _ Hw Hh), Hl. cbn [mbind option_bind]. rewrite decide_True by done. intros [= <- <-]. right.
  exists c. rewrite !reverse_involutive. split_and!; [done..|]. by exists cur.
Qed.

(** ** C128: the value that is stored *)
Lemma shorten D (OK : domain_ok D) (cur γ : St D) ss os c : walk ss os c → last ss = Some γ → cur ∈ ss →
  ∃ ss' os' c', walk (cur :: ss') os' c' ∧ last (cur :: ss') = Some γ ∧ cur ∉ ss' ∧ c' ≤ c.
Proof.
  induction 1 as [s|s o ss os c Ho Hw IH]; intros Hl Hin.
  - apply elem_of_list_singleton in Hin as ->. exists [], [], 0. split_and!; [constructor|done|apply not_elem_of_nil|lia].
  - pose proof (ok_cost OK s o Ho). destruct (decide (cur ∈ dest s o :: ss)) as [Hd|Hd].
    + destruct IH as (ss' & os' & c' & H1 & H2 & H3 & H4); [exact Hl|done|]. exists ss', os', c'. split_and!; [done..|lia].
    + apply elem_of_cons in Hin as [<-|?]; [|done]. exists (dest cur o :: ss), (o :: os), (cost cur o + c). split_and!; [by constructor|done..].
Qed.

(** A state that has been generated: an operator of an expanded state leads to it. *)
Definition generated {D} (m : graph D) (s : St D) : Prop := ∃ y o, y ∈ g_exp m ∧ o ∈ ops y ∧ dest y o = s.

(** If no value is more than [d] above the cost of a solution, then the value that a step stores for the current state, less
    the factor, is not more than [d] above the cost of a solution either; unless a goal has been generated that costs no
    more than that solution. *)
Theorem C128_value D lim stop go grain full fuel k cur m st m' st' o s' d : domain_ok D →
  step D lim stop go grain full fuel k cur m st = Some (m', st', o, s') →
  (∀ s, 0 <= g_h m s)%Q → (0 <= d)%Q → (∀ s ss os c, solution s ss os c → g_h m s <= inject_Z c + d)%Q → isgoal cur = false →
  ∀ ss os c, solution cur ss os c →
  (g_h m' cur <= (inject_Z c + d) * scale full)%Q ∨
  ∃ ss' os' c' γ, solution cur ss' os' c' ∧ c' ≤ c ∧ last ss' = Some γ ∧ generated m' γ.
Proof.
  intros OK Hs Hpos Hd Hn Hg ss os c (Hw & Hh & γ & Hl & Hγ).
  destruct (step_facts D OK _ _ _ _ _ _ _ _ _ _ _ _ _ _ Hs Hpos) as (m1 & F & i & t & f & HF & Hm1 & Hle & Hn1 & Ht & Hf & Hmin & _ & _ & Hv & Hx & _).
  destruct (shorten D OK cur γ ss os c Hw Hl) as (ss1 & os1 & c1 & Hw1 & Hl1 & Hcu & Hc1). { destruct ss; [done|]. injection Hh as ->. left. }
  assert (Hsc : (0 <= scale full)%Q) by (destruct full; cbn; lra).
  inversion Hw1 as [|? o1 ss2 os2 c2 Ho1 Hw2]; subst. { injection Hl1 as <-. congruence. }
  apply elem_of_list_lookup_1 in Ho1 as [i' Hi'].
  assert (is_Some (f_trees F !! i')) as [t' Ht']. { apply lookup_lt_is_Some. rewrite (fi_len _ _ _ _ _ _ HF). by apply lookup_lt_Some in Hi'. }
  destruct (fi_tree _ _ _ _ _ _ HF i' t' Ht') as (Hi & Ho' & Hr & Hg0 & _). rewrite Hi' in Ho'. injection Ho' as ->.
  assert (Hcu2 : cur ∉ ss2). { intros H. apply Hcu. by right. }
  rewrite <-Hr in Hw2. assert (Hl2 : last (l_root t' :: ss2) = Some γ). { rewrite Hr. exact Hl1. }
  assert (Hgoal : ∀ j kn, l_nodes t' !! j = Some kn → isgoal (t_st kn) = true → (t_g kn <= inject_Z (l_g0 t' + c2))%Q →
    ∃ ss' os' c' γ', solution cur ss' os' c' ∧ c' ≤ c ∧ last ss' = Some γ' ∧ generated m' γ').
  { intros j kn Hkn Hgk Hle2. destruct (ti_node _ _ _ _ _ _ Hi j kn Hkn) as [(ss3 & os3 & c3 & Hw3 & Hl3 & _ & Hg3) Hseen _ _ _ _ _].
    exists (cur :: l_root t' :: ss3), (l_op t' :: os3), (l_g0 t' + c3), (t_st kn). split_and!.
    - split; [|split; [done|]].
      + rewrite Hr, Hg0. apply walk_step; [by apply elem_of_list_lookup_2 in Hi'|]. by rewrite <-Hr.
      + exists (t_st kn). split; [|done]. exact Hl3.
    - rewrite Hg3 in Hle2. rewrite <-Zle_Qle in Hle2. lia.
    - exact Hl3.
    - destruct Hseen as (y & o' & Hy & Hyo & Hyd). exists y, o'. rewrite Hx. done. }
  destruct (fg D t') as [f'|] eqn:Ef'.
  - destruct (tree_bound D OK cur (g_h m) d m1 t' f' ss2 os2 c2 γ) as [Hb|(j & kn & _ & Hkn & Hgk & Hle2)]; try done; [by apply Hn1| |right; by apply (Hgoal j kn)].
    left. rewrite Hv. apply Qmult_le_compat_r; [|done]. specialize (Hmin i' t' f' Ht' Ef').
    assert (inject_Z (l_g0 t' + c2) <= inject_Z c)%Q. { rewrite <-Zle_Qle. lia. } lra.
  - right. destruct (ti_root _ _ _ _ _ _ Hi) as (n & Hn0 & Hst & Hgn).
    destruct (chain D OK cur (g_h m) m1 t' _ _ _ Hi Hw2 0 n γ Hn0) as [(j & kn & ? & ? & ? & Hj & Hkn & _)|(j & kn & Hj & Hkn & Hgk & Hle2)]; try done.
    { cbn. by rewrite Hst. }
    + unfold fg in Ef'. destruct (front (l_open t')) eqn:E; [done|]. apply front_None in E. rewrite E in Hj. by apply elem_of_nil in Hj.
    + apply (Hgoal j kn); try done. rewrite inject_Z_plus. lra.
Qed.

(** The step moves to where the value that is stored comes from: a way that begins with the operator of the move, does not
    come back, and ends in a state whose value makes up the rest, or in a goal.  The value, less the factor, is no lower than
    before but for the second case. *)
Theorem C128_move D lim stop go grain full fuel k cur m st m' st' o s' : domain_ok D →
  step D lim stop go grain full fuel k cur m st = Some (m', st', o, s') → (∀ s, 0 <= g_h m s)%Q →
  ∃ v, (g_h m' cur == v * scale full)%Q ∧
  ∃ ss os c x, walk (cur :: s' :: ss) (o :: os) c ∧ last (s' :: ss) = Some x ∧ cur ∉ ss ∧ generated m' x ∧
    ((g_h m cur <= v)%Q ∧ (inject_Z c + g_h m x <= v)%Q ∧ (full = false → x ≠ cur → v <= inject_Z c + g_h m' x)%Q ∨
     isgoal x = true ∧ (v == inject_Z c)%Q).
Proof.
  intros OK Hs Hpos.
  destruct (step_facts D OK _ _ _ _ _ _ _ _ _ _ _ _ _ _ Hs Hpos) as (m1 & F & i & t & f & HF & Hm1 & Hle & Hn1 & Ht & Hf & Hmin & -> & -> & Hv & Hx & Hrest).
  exists f.1. split; [by rewrite Hv|]. destruct (fi_tree _ _ _ _ _ _ HF i t Ht) as (Hi & Ho & Hr & Hg0 & _).
  destruct (tree_attained D cur (g_h m) m1 t f Hi Hm1 Hf) as (ss & os & c & x & Hw & Hl & Hcu & Hseen & Hg & Hc).
  exists ss, os, (l_g0 t + c), x. split_and!; try done.
  - rewrite Hr, Hg0. apply walk_step; [by apply elem_of_list_lookup_2 in Ho|]. by rewrite <-Hr.
  - destruct Hseen as (y & o' & Hy & Hyo & Hyd). exists y, o'. by rewrite Hx.
  - destruct Hc as [(H1 & H2 & H3)|[H1 H2]]; [left|right].
    + split_and!; [done|lra|]. intros Hfull Hne. rewrite (Hrest Hfull x Hne). lra.
    + split; [done|lra].
Qed.

(** Without -learnfull, the values of the other states do not fall, and stay as close to the costs of solutions as they were. *)
Theorem C128_others D lim stop go grain fuel k cur m st m' st' o s' s : domain_ok D →
  step D lim stop go grain false fuel k cur m st = Some (m', st', o, s') → (∀ s, 0 <= g_h m s)%Q → s ≠ cur →
  (g_h m s <= g_h m' s)%Q ∧
  ∀ d, (∀ s ss os c, solution s ss os c → g_h m s <= inject_Z c + d)%Q → ∀ ss os c, solution s ss os c → (g_h m' s <= inject_Z c + d)%Q.
Proof.
  intros OK Hs Hpos Hne.
  destruct (step_facts D OK _ _ _ _ _ _ _ _ _ _ _ _ _ _ Hs Hpos) as (m1 & F & i & t & f & HF & Hm1 & Hle & Hn1 & Ht & Hf & Hmin & _ & _ & Hv & Hx & Hrest).
  rewrite (Hrest eq_refl s Hne). split; [apply Hle|]. intros d Hd. by apply Hn1.
Qed.

(** ** C129: the goal that a local search has expanded *)
(** [plant] makes the local searches of a step, [rounds] expands them.  Then the goal of a local search, once it is expanded,
    is reached without the current state, and no way from the root to a goal that avoids the current state is cheaper by
    more than [d]. *)
Theorem C129_goal D lim stop go grain fuel k cur m st m1 F1 m2 F2 st2 d i t b n : domain_ok D →
  (∀ s, 0 <= g_h m s)%Q → (0 <= d)%Q → (∀ s ss os c, solution s ss os c → g_h m s <= inject_Z c + d)%Q → cur ∈ g_exp m →
  plant D cur (ops cur) m (Forest [] (new (λ _, None))) = Some (m1, F1) →
  rounds D lim stop go grain fuel k 0 0 cur m1 F1 st = Some (m2, F2, st2) →
  f_trees F2 !! i = Some t → l_goal t = Some b → l_nodes t !! b = Some n → t_cl n = true →
  isgoal (t_st n) = true ∧ l_root t = dest cur (l_op t) ∧ l_g0 t = cost cur (l_op t) ∧
  (∃ ss os c, walk (l_root t :: ss) os c ∧ last (l_root t :: ss) = Some (t_st n) ∧ cur ∉ ss ∧ (t_g n == inject_Z (l_g0 t + c))%Q) ∧
  ∀ ss os c γ, walk (l_root t :: ss) os c → last (l_root t :: ss) = Some γ → isgoal γ = true → cur ∉ ss →
    (t_g n <= inject_Z (l_g0 t + c) + d)%Q.
Proof.
  intros OK Hpos Hd Hn Hc Hp Hr Ht Hb Hbn Hcl.
  assert (minv D cur (g_h m) m) as Hm0. { split; intros; [done|lra..]. }
  destruct (plant_spec D OK cur (g_h m) (ops cur) [] m _ (start_finv _ _ _ _) Hm0 Hc) as (m1' & F1' & Hp' & HF1 & Hm1 & Hle1 & Hn1); [done|].
  rewrite Hp in Hp'. injection Hp' as <- <-. cbn [app] in HF1.
  apply (rounds_spec D OK lim cur (g_h m)) with (os := ops cur) in Hr as (HF2 & Hm2 & Hle2 & Hn2); [|done..].
  destruct (fi_tree _ _ _ _ _ _ HF2 i t Ht) as (Hi & Ho & Hroot & Hg0 & Hpt). destruct (Hpt Hpos) as (β & Hβ1 & Hβ2).
  pose proof (ti_goal _ _ _ _ _ _ Hi) as HG. rewrite Hb in HG. destruct HG as (bn & Hbn' & Hbg & Hbm). simplify_eq.
  split_and!; try done. { apply (no_walk _ _ _ _ _ _ _ (ti_node _ _ _ _ _ _ Hi b n Hbn)). }
  intros ss os c γ Hw Hl Hg Hcu. destruct (ti_root _ _ _ _ _ _ Hi) as (rn & Hn0 & Hst & Hgn). rewrite inject_Z_plus.
  destruct (chain D OK cur (g_h m) m2 t _ _ _ Hi Hw 0 rn γ Hn0) as [(j & kn & ss' & os' & c' & Hj & Hkn & Hs & Hle)|(j & kn & Hj & Hkn & Hgk & Hle)]; try done.
  { cbn. by rewrite Hst. }
  - specialize (Hβ1 b n Hbn Hbg Hcl). specialize (Hβ2 j Hj). pose proof (no_f _ _ _ _ _ _ _ (ti_node _ _ _ _ _ _ Hi j kn Hkn)) as Hf.
    pose proof (Hn2 d (Hn1 d Hn) _ _ _ _ Hs) as Hh. lra.
  - specialize (Hbm j kn Hkn Hgk). lra.
Qed.

(** ** A step ends *)
Lemma finv_front D cur h0 os m F : finv D cur h0 os m F → os ≠ [] → ∃ i t, front (f_lss F) = Some i ∧ f_trees F !! i = Some t.
Proof.
  intros HF Hne. assert (arr (f_lss F) ≠ []) as Ha.
  { intros He. destruct os as [|o os]; [done|]. pose proof (fi_len _ _ _ _ _ _ HF) as Hl. cbn in Hl.
    assert (0%nat ∈ arr (f_lss F)) as H0 by (apply (fi_in _ _ _ _ _ _ HF); lia). rewrite He in H0. by apply elem_of_nil in H0. }
  destruct (front (f_lss F)) as [i|] eqn:E; [|by apply front_None in E].
  apply front_in in E as Hin. apply (fi_in _ _ _ _ _ _ HF), lookup_lt_is_Some in Hin as [t Ht]. by exists i, t.
Qed.
Section ends.
Context (D : domain) (OK : domain_ok D) (lim : limits) (stop go : nat → nat → bool) (grain : nat) (cur : St D) (h0 : St D → Q).
Context (Hh0 : ∀ s, (0 <= h0 s)%Q).
Lemma expand1_total m t st : tinv D cur h0 (alldone D) m t → minv D cur h0 m → near D 0 m → is_Some (expand1 D lim cur m t st).
Proof.
  intros Hi Hm Hn. pose proof (expand1_spec D OK lim cur h0 m t st Hi Hm) as H. destruct (expand1 D lim cur m t st) as [r|]; [done|]. exfalso.
  destruct H as (i & n & b & bn & _ & Hn1 & Hg & Hb & Hbn & Hgg & Hk).
  assert (isgoal (t_st bn) = true) as Hbg.
  { pose proof (ti_goal _ _ _ _ _ _ Hi) as HG. rewrite Hb in HG. destruct HG as (bn' & Hbn' & Hbg & _). simplify_eq. done. }
  pose proof (no_f _ _ _ _ _ _ _ (ti_node _ _ _ _ _ _ Hi b bn Hbn)) as H1.
  pose proof (no_f0 _ _ _ _ _ _ _ (ti_node _ _ _ _ _ _ Hi i n Hn1)) as H2.
  pose proof (Hh0 (t_st n)) as H3.
  assert (g_h m (t_st bn) <= inject_Z 0 + 0)%Q as H4.
  { apply (Hn _ [t_st bn] []). split; [constructor|]. split; [done|]. by exists (t_st bn). }
  change (inject_Z 0) with 0%Q in H4. unfold Geom.Model.Threshold in Hgg. lra.
Qed.
Lemma expands_total os e : os ≠ [] → ∀ k j m F st, finv D cur h0 os m F → minv D cur h0 m → near D 0 m →
  ∃ m' F' st' b j', expands D lim stop e k j cur m F st = Some (m', F', st', b, j') ∧ (j ≤ j')%nat ∧ (e ≠ 0 → j < j')%nat ∧
    (b = false → ∀ x, (j ≤ x < j')%nat → stop k x = false).
Proof.
  intros Hne. induction e as [|e IH]; intros k j m F st HF Hm Hn; cbn [expands].
  { eexists _, _, _, _, _. split; [reflexivity|]. split_and!; [lia..|]. intros _ x Hx. lia. }
  destruct (stop k j) eqn:Est. { eexists _, _, _, _, _. split; [reflexivity|]. split_and!; [lia..|]. done. }
  assert (Hone : ∀ x, (j ≤ x < S j)%nat → stop k x = false). { intros x Hx. by replace x with j by lia. }
  destruct (rreached lim st). { eexists _, _, _, _, _. split; [reflexivity|]. split_and!; [lia..|]. done. }
  destruct (finv_front _ _ _ _ _ _ HF Hne) as (i & t & Ef & Et). rewrite Ef. cbn [mbind option_bind]. rewrite Et. cbn [mbind option_bind].
  destruct (goalclosed D t). { eexists _, _, _, _, _. split; [reflexivity|]. split_and!; [lia..|]. done. }
  destruct (fi_tree _ _ _ _ _ _ HF i t Et) as [Hi _].
  destruct (expand1_total m t (rcalled st) Hi Hm Hn) as [[[m1 t1] st1] Ex].
  pose proof (expand1_spec D OK lim cur h0 m t (rcalled st) Hi Hm) as Hx. rewrite Ex in Hx |- *.
  destruct Hx as (Hi1 & Hm1 & Hle1 & Hn1 & Hpt & Hr & Ho & Hg). cbn [mbind option_bind].
  destruct (update_spec lsort (sw_asym _ lsort_sw) (sw_neg_trans _ lsort_sw) (λ _, True) (f_lss F) i (fg D t1) (fi_heap _ _ _ _ _ _ HF) (front_in _ _ Ef))
    as (q & Hq & Hqi & HP & Hqk).
  rewrite (front_ind0 lsort _ _ (fi_heap _ _ _ _ _ _ HF) Ef) in Hq. rewrite Hq. cbn [mbind option_bind].
  destruct (IH k (S j) m1 (Forest (<[i := t1]> (f_trees F)) q) st1) as (m2 & F2 & st2 & b & j2 & -> & H1 & H2 & H3).
  - apply (upd_finv D cur h0 os m m1 F i t); try done. intros x. by rewrite HP.
  - done.
  - by apply Hn1.
  - eexists _, _, _, _, _. split; [reflexivity|]. split_and!; [lia..|]. intros Hb x Hxx.
    destruct (decide (x = j)) as [->|?]; [done|]. apply H3; [done|lia].
Qed.
Lemma keepgoing_total os k r m F : os ≠ [] → finv D cur h0 os m F → is_Some (keepgoing D go k r F).
Proof.
  intros Hne HF. unfold keepgoing. case_decide as Hs; [done|].
  assert (Hsome : ∀ x, x ∈ arr (f_lss F) → is_Some (f_trees F !! x)). { intros x Hx. apply lookup_lt_is_Some. by apply (fi_in _ _ _ _ _ _ HF). }
  destruct (finv_front _ _ _ _ _ _ HF Hne) as (i0 & t0 & Ef & _). apply front_in in Ef.
  assert (arr (f_lss F) ≠ []) as Hn0. { intros He. rewrite He in Ef. by apply elem_of_nil in Ef. }
  pose proof (fi_heap _ _ _ _ _ _ HF) as Hh.
  destruct (Lss.Learn.pop_spec' lsort _ lsort_sw Hh Hn0) as (q1 & a & Hp1 & Hq1 & Ha & Hna & Hin1 & Hk1 & _).
  rewrite Hp1. cbn [mbind option_bind].
  assert (arr q1 ≠ []) as Hne1.
  { intros He. apply Hs. unfold BinHeap.Model.size. destruct (inv_exact _ _ _ Hh) as [Hnd _].
    destruct (arr (f_lss F)) as [|x [|y l]] eqn:Ea; [done..|]. exfalso.
    assert (x = a) as ->. { destruct (proj1 (Hin1 x)) as [?|Hx]; [left|done|]. rewrite He in Hx. by apply elem_of_nil in Hx. }
    assert (y = a) as ->. { destruct (proj1 (Hin1 y)) as [?|Hx]; [right; left|done|]. rewrite He in Hx. by apply elem_of_nil in Hx. }
    apply NoDup_cons in Hnd as [Hnd _]. apply Hnd. left. }
  destruct (Lss.Learn.pop_spec' lsort _ lsort_sw Hq1 Hne1) as (q2 & c & Hp2 & Hq2 & Hc & Hnc & Hin2 & Hk2 & _).
  rewrite Hp2. cbn [mbind option_bind]. destruct (Hsome a Ha) as [ta ->]. cbn [mbind option_bind].
  destruct (Hsome c) as [tc ->]; [apply Hin1; by right|]. cbn [mbind option_bind].
  assert (a ∉ arr q2) as Ha2. { intros H. apply Hna, Hin2. by right. }
  destruct (push_spec lsort (sw_asym _ lsort_sw) (sw_neg_trans _ lsort_sw) (λ _, True) q2 a (fg D ta) Hq2 Ha2) as (q3 & -> & Hq3 & HP3 & Hk3).
  cbn [mbind option_bind].
  assert (c ∉ arr q3) as Hc3. { rewrite HP3, elem_of_cons. intros [->|H]; done. }
  destruct (push_spec lsort (sw_asym _ lsort_sw) (sw_neg_trans _ lsort_sw) (λ _, True) q3 c (fg D tc) Hq3 Hc3) as (q4 & -> & _). done.
Qed.
Lemma rounds_total os N fuel : os ≠ [] → grain ≠ 0%nat → ∀ k r j m F st, finv D cur h0 os m F → minv D cur h0 m → near D 0 m →
  stop k N = true → (j ≤ N < fuel + j)%nat → is_Some (rounds D lim stop go grain fuel k r j cur m F st).
Proof.
  intros Hne Hgr. induction fuel as [|fuel IH]; intros k r j m F st HF Hm Hn HN Hj; [lia|]. cbn [rounds].
  destruct (expands_total os grain Hne k j m F st HF Hm Hn) as (m1 & F1 & st1 & b & j1 & Ex & H1 & H2 & H3). rewrite Ex. cbn [mbind option_bind].
  apply (expands_spec D OK lim cur h0 stop os) in Ex as (HF1 & Hm1 & Hle1 & Hn1); [|done..].
  destruct (rreached lim st1); [done|]. destruct (finv_front _ _ _ _ _ _ HF1 Hne) as (i & t & -> & Et). cbn [mbind option_bind]. rewrite Et. cbn [mbind option_bind].
  destruct (l_goal t); [done|]. destruct b; [done|].
  destruct (keepgoing_total os k r m1 F1 Hne HF1) as [[b F2] Ek]. rewrite Ek. cbn [mbind option_bind]. destruct b; [|done].
  apply IH; [by apply (keepgoing_spec D cur h0 go os k r m1) in Ek|done|by apply Hn1|done|].
  specialize (H2 Hgr). split; [|lia]. destruct (decide (j1 ≤ N)%nat) as [?|Hgt]; [done|]. rewrite (H3 eq_refl N) in HN by lia. done.
Qed.
End ends.

(** From values that are admissible, with a lookahead limit that says stop by its [N]-th call, a step without -learnfull ends;
    no assertion fails in it. *)
Theorem C127_step_ends D lim stop go grain fuel k cur m st N ss os c : domain_ok D →
  (∀ s, 0 <= g_h m s)%Q → (∀ s ss os c, solution s ss os c → g_h m s <= inject_Z c)%Q →
  isgoal cur = false → solution cur ss os c → grain ≠ 0%nat → stop k N = true → (N < fuel)%nat →
  is_Some (step D lim stop go grain false fuel k cur m st).
Proof.
  intros OK Hpos Hadm Hg (Hw & Hh & γ & Hl & Hγ) Hgr HN Hf. unfold step. destruct (succs D cur m st) as [m0 st0] eqn:Es.
  apply succs_spec in Es as (Hh0 & Hc0 & Hx0).
  assert (minv D cur (g_h m) m0) as Hm0. { split; intros; rewrite Hh0; [done|lra..]. }
  destruct (plant_spec D OK cur (g_h m) (ops cur) [] m0 _ (start_finv _ _ _ _) Hm0 Hc0) as (m1 & F1 & Hp & HF1 & Hm1 & Hle1 & Hn1); [done|].
  rewrite Hp. cbn [mbind option_bind]. cbn [app] in HF1.
  destruct (shorten D OK cur γ ss os c Hw Hl) as (ss1 & os1 & c1 & Hw1 & Hl1 & Hcu & Hc1). { destruct ss; [done|]. injection Hh as ->. left. }
  inversion Hw1 as [|? o1 ss2 os2 c2 Ho1 Hw2]; subst. { injection Hl1 as <-. congruence. }
  assert (ops cur ≠ []) as Hne. { intros He. rewrite He in Ho1. by apply elem_of_nil in Ho1. }
  assert (near D 0 m1) as Hn. { apply Hn1, (near_eq _ 0 m); [done|]. intros s ss' os' c' Hs. specialize (Hadm _ _ _ _ Hs). lra. }
  destruct (rounds_total D OK lim stop go grain cur (g_h m) Hpos (ops cur) N fuel Hne Hgr k 0 0 m1 F1 st0 HF1 Hm1 Hn HN) as [[[m2 F2] st2] Er]; [lia|].
  rewrite Er. cbn [mbind option_bind]. apply (rounds_spec D OK lim cur (g_h m)) with (os := ops cur) in Er as (HF2 & Hm2 & Hle2 & Hn2); [|done..].
  destruct (finv_front D cur (g_h m) (ops cur) m2 F2 HF2 Hne) as (i & t & Ef & Et). rewrite Ef. cbn [mbind option_bind]. rewrite Et. cbn [mbind option_bind].
  destruct (fg D t) as [[f g]|] eqn:Efg; [done|]. exfalso.
  apply elem_of_list_lookup_1 in Ho1 as [i' Hi'].
  assert (is_Some (f_trees F2 !! i')) as [t' Ht']. { apply lookup_lt_is_Some. rewrite (fi_len _ _ _ _ _ _ HF2). by apply lookup_lt_Some in Hi'. }
  destruct (fi_tree _ _ _ _ _ _ HF2 i' t' Ht') as (Hi & Ho' & Hr & _). rewrite Hi' in Ho'. injection Ho' as ->.
  assert (fg D t' = None) as Ef'.
  { assert (i' ∈ arr (f_lss F2)) as Hin. { apply (fi_in _ _ _ _ _ _ HF2). by apply lookup_lt_Some in Ht'. }
    pose proof (front_min lsort _ i i' lsort_sw (fi_heap _ _ _ _ _ _ HF2) Ef Hin) as Hm.
    rewrite (fi_key _ _ _ _ _ _ HF2 i t Et), (fi_key _ _ _ _ _ _ HF2 i' t' Ht'), Efg in Hm. by destruct (fg D t'). }
  rewrite <-Hr in Hw2. assert (Hl2 : last (l_root t' :: ss2) = Some γ). { rewrite Hr. exact Hl1. }
  destruct (ti_root _ _ _ _ _ _ Hi) as (rn & Hn0 & Hst & Hgn).
  destruct (chain D OK cur (g_h m) m2 t' _ _ _ Hi Hw2 0 rn γ Hn0) as [(j & kn & ? & ? & ? & Hj & Hkn & _)|(j & kn & Hj & Hkn & Hgk & Hle3)]; try done.
  { cbn. by rewrite Hst. }
  { cbn. intros H. apply Hcu. by right. }
  - unfold fg in Ef'. destruct (front (l_open t')) eqn:E; [done|]. apply front_None in E. rewrite E in Hj. by apply elem_of_nil in Hj.
  - pose proof (ti_goal _ _ _ _ _ _ Hi) as HG. unfold fg in Ef'. destruct (front (l_open t')); [done|]. destruct (l_goal t') as [b|].
    + destruct HG as (bn & Hbn & _). by rewrite Hbn in Ef'.
    + by rewrite (HG _ _ Hkn) in Hgk.
Qed.

(** ** Examples *)
(** State 1 is next to the goal 2; there is another way on from it. *)
Definition dt_dom : domain := table_domain [(0%nat, 1%nat, 1); (1%nat, 2%nat, 1); (1%nat, 3%nat, 5); (3%nat, 2%nat, 1)] 2.
Definition dt_mem (D : domain) : graph D := Graph (λ _, 0%Q) [] (λ _, []).
Definition dt_step := step dt_dom no_limits (λ _ _, false) (λ _ _, true) 10 false 10 0 0%nat (dt_mem dt_dom) (RCount 0 0 0).
Example dt_ok : domain_ok dt_dom.
Proof. by apply table_ok. Qed.
Lemma zero_near D : domain_ok D → ∀ s ss os c, solution s ss os c → (g_h (dt_mem D) s <= inject_Z c)%Q.
Proof. intros OK s ss os c (Hw & _). apply (walk_nonneg D) in Hw; [|done]. cbn. change 0%Q with (inject_Z 0). by rewrite <-Zle_Qle. Qed.

Lemma dt_sol : solution (D := dt_dom) 0%nat [0; 1; 2]%nat [1; 2]%nat 2.
Proof.
  split; [|split; [done|by exists 2%nat]].
    apply (walk_step dt_dom 0%nat 1%nat [2%nat] [2%nat] 1); [by apply elem_of_list_In; left|].
    apply (walk_step dt_dom 1%nat 2%nat [] [] 0); [by apply elem_of_list_In; left|constructor].
Qed.

(** Once a goal is expanded the value of a local search is that of the next node in its open list: here 6.6 is stored for a
    state at distance 2, six tenths of it due to the factor. *)
Theorem C128_value_refuted :
  ¬ ∀ D lim stop go grain full fuel k cur m st m' st' o s', domain_ok D →
    step D lim stop go grain full fuel k cur m st = Some (m', st', o, s') →
    (∀ s, 0 <= g_h m s)%Q → (∀ s ss os c, solution s ss os c → g_h m s <= inject_Z c)%Q → isgoal cur = false →
    ∀ ss os c, solution cur ss os c → (g_h m' cur <= inject_Z c * scale full)%Q.
Proof.
  intros H. assert (Hv : option_map (λ r, Qle_bool (@g_h dt_dom r.1.1.1 0%nat) (2 * (11 # 10))) dt_step = Some false) by (vm_compute; reflexivity).
  destruct dt_step as [[[[m' st'] o] s']|] eqn:E; [|discriminate]. unfold dt_step in E. injection Hv as Hv.
  specialize (H dt_dom _ _ _ _ _ _ _ _ _ _ _ _ _ _ dt_ok E). specialize (H (λ _, Qle_refl 0) (zero_near _ dt_ok) eq_refl _ _ _ dt_sol).
  clear E. apply Qle_bool_iff in H. cbn [fst scale] in H, Hv. change (inject_Z 2) with 2%Q in H. rewrite H in Hv. discriminate.
Qed.

(** A corridor; the estimates are the distances. *)
Definition co_dom : domain := table_domain [(0%nat, 1%nat, 1); (1%nat, 0%nat, 1); (1%nat, 2%nat, 1); (2%nat, 1%nat, 1); (2%nat, 3%nat, 1)] 3.
Example co_ok : domain_ok co_dom.
Proof. by apply table_ok. Qed.
Definition co_dist (s : nat) : Z := match s with 0%nat => 3 | 1%nat => 2 | 2%nat => 1 | _ => 0 end.
Definition co_mem : graph co_dom := Graph (D := co_dom) (λ s, inject_Z (co_dist s)) [] (λ _, []).
Lemma co_near (s : St co_dom) ss os c : solution (D := co_dom) s ss os c → (g_h co_mem s <= inject_Z c)%Q.
Proof.
  intros Hs. cbn. rewrite <-Zle_Qle. revert Hs. apply (consistent_admissible co_dom co_dist co_dist); [|done]. split.
  - intros x Hx. apply bool_decide_eq_true in Hx as ->. done.
  - intros x t Ht. apply elem_of_list_fmap in Ht as (e & -> & He). apply elem_of_list_filter in He as [He Hi].
    repeat (apply elem_of_cons in Hi as [->|Hi]; [cbn in He; subst x; vm_compute; discriminate|]). by apply elem_of_nil in Hi.
Qed.
Lemma co_pos (s : St co_dom) : (0 <= g_h co_mem s)%Q.
Proof. cbn. change 0%Q with (inject_Z 0). rewrite <-Zle_Qle. destruct s as [|[|[|s]]]; cbn; lia. Qed.
Lemma co_sol : solution (D := co_dom) 0%nat [0; 1; 2; 3]%nat [1; 2; 3]%nat 3.
Proof.
  split; [|split; [done|by exists 3%nat]].
  apply (walk_step co_dom 0%nat 1%nat [2%nat; 3%nat] [2; 3]%nat 2); [by apply elem_of_list_In; left|].
  apply (walk_step co_dom 1%nat 2%nat [3%nat] [3%nat] 1); [by apply elem_of_list_In; right; left|].
  apply (walk_step co_dom 2%nat 3%nat [] [] 0); [by apply elem_of_list_In; right; left|constructor].
Qed.
(** One expansion and the move; 33/10 is stored for the first state, whose distance is 3.  The two other states that are
    generated are no goals. *)
Definition co_step := step co_dom no_limits (λ _ j, (1 <=? j)%nat) (λ _ _, true) 10 false 10 0 0%nat co_mem (RCount 0 0 0).
Example co_step_ex : ∃ m st, co_step = Some (m, st, 1%nat, 1%nat) ∧ (g_h m 0%nat == 33 # 10)%Q ∧ g_exp m = [1; 0]%nat ∧
  (∀ s, 0 <= g_h co_mem s)%Q ∧ (∀ s ss os c, solution s ss os c → g_h co_mem s <= inject_Z c)%Q ∧
  solution (D := co_dom) 0%nat [0; 1; 2; 3]%nat [1; 2; 3]%nat 3.
Proof.
  assert (Hv : option_map (λ r, (Qeq_bool (@g_h co_dom r.1.1.1 0%nat) (33 # 10), @g_exp co_dom r.1.1.1, r.1.2, r.2)) co_step =
    Some (true, [1; 0]%nat, 1%nat, 1%nat)) by (vm_compute; reflexivity).
  destruct co_step as [[[[m st] o] s]|]; [|discriminate]. injection Hv as Hv Hx -> ->.
  exists m, st. split; [reflexivity|]. split; [by apply Qeq_bool_iff|]. split; [exact Hx|exact (conj co_pos (conj co_near co_sol))].
Qed.
(** So the values do not stay admissible, though no goal has been generated. *)
Theorem C128_admissible_refuted :
  ¬ ∀ D lim stop go grain fuel k cur m st m' st' o s', domain_ok D →
    step D lim stop go grain false fuel k cur m st = Some (m', st', o, s') →
    (∀ s, 0 <= g_h m s)%Q → (∀ s ss os c, solution s ss os c → g_h m s <= inject_Z c)%Q → isgoal cur = false →
    (∀ s, generated m' s → isgoal s = false) →
    ∀ ss os c, solution cur ss os c → (g_h m' cur <= inject_Z c)%Q.
Proof.
  intros H. destruct co_step_ex as (m' & st' & E & Hv & Hx & Hpos & Hn & Hs). unfold co_step in E.
  specialize (H co_dom _ _ _ _ _ _ _ _ _ _ _ _ _ co_ok E Hpos Hn eq_refl). clear E.
  assert (∀ s, generated m' s → isgoal (d := co_dom) s = false) as Hng.
  { intros s (y & o & Hy & Ho & <-). rewrite Hx in Hy.
    repeat (apply elem_of_cons in Hy as [->|Hy]; [cbn in Ho; repeat (apply elem_of_cons in Ho as [->|Ho]; [done|]); by apply elem_of_nil in Ho|]).
    by apply elem_of_nil in Hy. }
  specialize (H Hng _ _ _ Hs). rewrite Hv in H. vm_compute in H. exact (H eq_refl).
Qed.

Example co_search : search co_dom no_limits (λ _ j, (1 <=? j)%nat) (λ _ _, true) 10 false 10 10 co_dist 0%nat = Some ([3; 2; 1; 0]%nat, [3; 2; 1]%nat).
Proof. by vm_compute. Qed.

(** The comment at dtastar.hpp:366-369 says that the goal, once it is expanded, is an optimal solution from the root.  Ways
    through the current state are left out: here the search below 3 expands the goal at cost 11; back over 0 it is 3 away
    from 3. *)
Definition th_dom : domain := table_domain
  [(0%nat, 1%nat, 1); (1%nat, 2%nat, 1); (1%nat, 4%nat, 20); (0%nat, 3%nat, 1); (3%nat, 0%nat, 1); (3%nat, 2%nat, 10); (4%nat, 1%nat, 1)] 2.
Example th_ok : domain_ok th_dom.
Proof. by apply table_ok. Qed.
Definition th_mem : graph th_dom := Graph (D := th_dom) (λ _, 0%Q) [0%nat] (λ _, []).
Lemma th_sol : solution (D := th_dom) 3%nat [3; 0; 1; 2]%nat [0; 1; 2]%nat 3.
Proof.
  split; [|split; [done|by exists 2%nat]].
    apply (walk_step th_dom 3%nat 0%nat [1%nat; 2%nat] [1; 2]%nat 2); [by apply elem_of_list_In; left|].
    apply (walk_step th_dom 0%nat 1%nat [2%nat] [2%nat] 1); [by apply elem_of_list_In; left|].
    apply (walk_step th_dom 1%nat 2%nat [] [] 0); [by apply elem_of_list_In; left|constructor].
Qed.
Definition th_plant := plant th_dom 0%nat (ops (d := th_dom) 0%nat) th_mem (Forest [] (new (λ _, None))).
Definition th_rounds (m1 : graph th_dom) F1 := rounds th_dom no_limits (λ _ _, false) (λ _ _, true) 20 20 0 0 0 0%nat m1 F1 (RCount 0 0 0).
Definition th_run : option (St th_dom * Z * bool * bool) :=
  '(m1, F1) ← th_plant; '(_, F2, _) ← th_rounds m1 F1; t ← @f_trees th_dom F2 !! 1%nat; b ← l_goal t; n ← l_nodes t !! b;
  Some (l_root t, l_g0 t, t_cl n, Qle_bool (t_g n) 4).
Lemma th_runs : th_run = Some (3%nat, 1, true, false).
Proof. vm_compute. reflexivity. Qed.
Lemma th_pos (s : St th_dom) : (0 <= g_h th_mem s)%Q.
Proof. apply Qle_refl. Qed.
Lemma th_near (s : St th_dom) ss os c : solution (D := th_dom) s ss os c → (g_h th_mem s <= inject_Z c)%Q.
Proof. apply (zero_near th_dom th_ok). Qed.
Lemma th_in : (0%nat : St th_dom) ∈ g_exp th_mem.
Proof. apply elem_of_list_here. Qed.
Theorem C129_optimal_refuted :
  ¬ ∀ D lim stop go grain fuel k cur m st m1 F1 m2 F2 st2 i t b n, domain_ok D →
    (∀ s, 0 <= g_h m s)%Q → (∀ s ss os c, solution s ss os c → g_h m s <= inject_Z c)%Q → cur ∈ g_exp m →
    plant D cur (ops cur) m (Forest [] (new (λ _, None))) = Some (m1, F1) →
    rounds D lim stop go grain fuel k 0 0 cur m1 F1 st = Some (m2, F2, st2) →
    f_trees F2 !! i = Some t → l_goal t = Some b → l_nodes t !! b = Some n → t_cl n = true →
    ∀ ss os c, solution (l_root t) ss os c → (t_g n <= inject_Z (l_g0 t + c))%Q.
Proof.
  intros H.
  pose proof th_runs as Hv. unfold th_run in Hv.
  destruct th_plant as [[m1 F1]|] eqn:E1; [|discriminate]. unfold th_plant in E1. cbn [mbind option_bind] in Hv.
  destruct (th_rounds m1 F1) as [[[m2 F2] st2]|] eqn:E2; [|discriminate]. unfold th_rounds in E2. cbn [mbind option_bind] in Hv.
  destruct (f_trees F2 !! 1%nat) as [t|] eqn:Et; [|discriminate]. cbn [mbind option_bind] in Hv.
  destruct (l_goal t) as [b|] eqn:Eb; [|discriminate]. cbn [mbind option_bind] in Hv.
  destruct (l_nodes t !! b) as [n|] eqn:En; [|discriminate]. cbn [mbind option_bind] in Hv. injection Hv as Hr Hg Hc Hn.
  specialize (H th_dom _ _ _ _ _ _ _ th_mem _ _ _ _ _ _ 1%nat t b n th_ok th_pos th_near th_in E1 E2 Et Eb En Hc).
  clear E1 E2. rewrite Hr, Hg in H. specialize (H _ _ _ th_sol). apply Qle_bool_iff in H. change (inject_Z (1 + 3)) with 4%Q in H.
  rewrite H in Hn. discriminate.
Qed.

(** -learnfull: the learning of a local search knows no way through the current state either.  Here 101 is learned for
    the state 2, from where the way back over 0 costs 13. *)
Definition lf_dom : domain := table_domain
  [(0%nat, 1%nat, 1); (1%nat, 2%nat, 1); (2%nat, 1%nat, 1); (2%nat, 3%nat, 1); (0%nat, 4%nat, 1); (4%nat, 5%nat, 10); (1%nat, 0%nat, 1)] 5.
Example lf_ok : domain_ok lf_dom.
Proof. by apply table_ok. Qed.
Definition lf_dist (s : nat) : Z := match s with 0%nat => 11 | 1%nat => 12 | 2%nat => 13 | 3%nat => 100 | 4%nat => 10 | _ => 0 end.
Definition lf_h (s : nat) : Z := if decide (s = 3%nat) then 100 else 0.
Definition lf_mem : graph lf_dom := Graph (D := lf_dom) (λ s, inject_Z (lf_h s)) [] (λ _, []).
Lemma lf_near (s : St lf_dom) ss os c : solution (D := lf_dom) s ss os c → (g_h lf_mem s <= inject_Z c)%Q.
Proof.
  intros Hs. cbn. rewrite <-Zle_Qle. revert Hs. apply (consistent_admissible lf_dom lf_h lf_dist).
  - split.
    + intros x Hx. apply bool_decide_eq_true in Hx as ->. done.
    + intros x t Ht. apply elem_of_list_fmap in Ht as (e & -> & He). apply elem_of_list_filter in He as [He Hi].
      repeat (apply elem_of_cons in Hi as [->|Hi]; [cbn in He; subst x; vm_compute; discriminate|]). by apply elem_of_nil in Hi.
  - intros x. unfold lf_h. case_decide as Hx; [by rewrite Hx|]. do 6 (destruct x as [|x]; [done|]). done.
Qed.
Lemma lf_pos (s : St lf_dom) : (0 <= g_h lf_mem s)%Q.
Proof. cbn. change 0%Q with (inject_Z 0). rewrite <-Zle_Qle. unfold lf_h. case_decide; lia. Qed.
Lemma lf_sol : solution (D := lf_dom) 2%nat [2; 1; 0; 4; 5]%nat [1; 0; 4; 5]%nat 13.
Proof.
  split; [|split; [done|by exists 5%nat]].
  apply (walk_step lf_dom 2%nat 1%nat [0; 4; 5]%nat [0; 4; 5]%nat 12); [by apply elem_of_list_In; left|].
  apply (walk_step lf_dom 1%nat 0%nat [4; 5]%nat [4; 5]%nat 11); [by apply elem_of_list_In; right; left|].
  apply (walk_step lf_dom 0%nat 4%nat [5%nat] [5%nat] 10); [by apply elem_of_list_In; right; left|].
  apply (walk_step lf_dom 4%nat 5%nat [] [] 0); [by apply elem_of_list_In; left|constructor].
Qed.
Definition lf_step := step lf_dom no_limits (λ _ j, (3 <=? j)%nat) (λ _ _, true) 10 true 20 0 0%nat lf_mem (RCount 0 0 0).
Theorem C128_learnfull_refuted :
  ¬ ∀ D lim stop go grain fuel k cur m st m' st' o s', domain_ok D →
    step D lim stop go grain true fuel k cur m st = Some (m', st', o, s') →
    (∀ s, 0 <= g_h m s)%Q → (∀ s ss os c, solution s ss os c → g_h m s <= inject_Z c)%Q → isgoal cur = false →
    ∀ s ss os c, s ≠ cur → solution s ss os c → (g_h m' s <= inject_Z c)%Q.
Proof.
  intros H. assert (Hv : option_map (λ r, Qle_bool (@g_h lf_dom r.1.1.1 2%nat) 13) lf_step = Some false) by (vm_compute; reflexivity).
  destruct lf_step as [[[[m' st'] o] s']|] eqn:E; [|discriminate]. unfold lf_step in E. injection Hv as Hv.
  specialize (H lf_dom _ _ _ _ _ _ _ _ _ _ _ _ _ lf_ok E lf_pos lf_near eq_refl 2%nat). clear E.
  assert (2%nat ≠ 0%nat) as Hne by discriminate. specialize (H _ _ _ Hne lf_sol).
  apply Qle_bool_iff in H. cbn [fst] in Hv. change (inject_Z 13) with 13%Q in H. rewrite H in Hv. discriminate.
Qed.

(** The assertion at dtastar.hpp:264 can fail from the second step on.  Goals are the states 3 and 4.  The first step, from
    0, moves to 1 and stores 108.9 for 0, above the distance 100.  In the second step the search below 2 expands 0; both
    goals inherit its f-value, and the dearer one, with more g, comes first. *)
Definition as_tbl : list (nat * nat * Z) :=
  [(0%nat, 3%nat, 100); (0%nat, 4%nat, 105); (0%nat, 1%nat, 50); (1%nat, 2%nat, 1); (2%nat, 0%nat, 1)].
Definition as_dom : domain := {|
  St := nat; Op := nat; St_eq := _; Op_eq := _;
  nop := 999%nat;
  ops s := (λ e, e.1.2) <$> filter (λ e, e.1.1 = s) as_tbl;
  edge s t := (t, default 0 (snd <$> list_find (λ e, e.1 = (s, t)) as_tbl ≫= λ e, Some e.2), s);
  isgoal s := bool_decide (s = 3%nat ∨ s = 4%nat);
|}.
Lemma as_ok : domain_ok as_dom.
Proof. destruct (table_ok as_tbl 3) as [H1 H2 H3]; [done|]. split; [exact H1|exact H2|exact H3]. Qed.
Definition as_dist (s : nat) : Z := match s with 0%nat => 100 | 1%nat => 102 | 2%nat => 101 | _ => 0 end.
Definition as_h (s : nat) : Z := if decide (s = 1%nat) then 49 else 0.
Lemma as_adm : admissible (D := as_dom) as_h.
Proof.
  apply (consistent_admissible as_dom as_h as_dist).
  - split.
    + intros x Hx. apply bool_decide_eq_true in Hx as [->| ->]; done.
    + intros x t Ht. apply elem_of_list_fmap in Ht as (e & -> & He). apply elem_of_list_filter in He as [He Hi].
      repeat (apply elem_of_cons in Hi as [->|Hi]; [cbn in He; subst x; vm_compute; discriminate|]). by apply elem_of_nil in Hi.
  - intros x. unfold as_h. case_decide as Hx; [by rewrite Hx|]. do 3 (destruct x as [|x]; [done|]). done.
Qed.
Definition as_mem : graph as_dom := Graph (D := as_dom) (λ s, inject_Z (as_h s)) [] (λ _, []).
Definition as_stop (k j : nat) : bool := (k =? 0)%nat || (9 <=? j)%nat.

Definition as_step := step as_dom no_limits as_stop (λ _ _, true) 10 false 10 0 0%nat as_mem (RCount 0 0 0).
Definition as_plant (m1 : graph as_dom) st1 :=
  plant as_dom 1%nat (ops (d := as_dom) 1%nat) (succs as_dom 1%nat m1 st1).1 (Forest [] (new (λ _, None))).
Definition as_exp (m : graph as_dom) t st := expand1 as_dom no_limits 1%nat m t st.
Definition as_run : option (Op as_dom * St as_dom * nat * bool) :=
  '(m1, st1, o, s) ← as_step; '(m2, F2) ← as_plant m1 st1; t2 ← @f_trees as_dom F2 !! 0%nat; '(m3, t3, st3) ← as_exp m2 t2 st1;
  '(m4, t4, st4) ← as_exp m3 t3 st3;
  Some (o, s, length (@f_trees as_dom F2), match as_exp m4 t4 st4 with Some _ => true | None => false end).
Lemma as_runs : as_run = Some (1%nat, 1%nat, 1%nat, false).
Proof. vm_compute. reflexivity. Qed.

Lemma as_fails : search as_dom no_limits as_stop (λ _ _, true) 10 false 10 20 as_h 0%nat = None.
Proof. vm_compute. reflexivity. Qed.

Theorem C127_assertion_refuted : ∃ m1 st1 m2 F2 t2 m3 t3 st3 m4 t4 st4,
  domain_ok as_dom ∧ admissible (D := as_dom) as_h ∧
  step as_dom no_limits as_stop (λ _ _, true) 10 false 10 0 0%nat as_mem (RCount 0 0 0) = Some (m1, st1, 1%nat, 1%nat) ∧
  plant as_dom 1%nat (ops (d := as_dom) 1%nat) (succs as_dom 1%nat m1 st1).1 (Forest [] (new (λ _, None))) = Some (m2, F2) ∧
  f_trees F2 = [t2] ∧
  expand1 as_dom no_limits 1%nat m2 t2 st1 = Some (m3, t3, st3) ∧
  expand1 as_dom no_limits 1%nat m3 t3 st3 = Some (m4, t4, st4) ∧
  expand1 as_dom no_limits 1%nat m4 t4 st4 = None ∧
  search as_dom no_limits as_stop (λ _ _, true) 10 false 10 20 as_h 0%nat = None.
Proof.
  pose proof as_runs as Hv. unfold as_run in Hv.
  destruct as_step as [[[[m1 st1] o] s]|] eqn:E1; [|discriminate Hv]. unfold as_step in E1. cbn [mbind option_bind] in Hv.
  destruct (as_plant m1 st1) as [[m2 F2]|] eqn:E2; [|discriminate Hv]. unfold as_plant in E2. cbn [mbind option_bind] in Hv.
  destruct (f_trees F2 !! 0%nat) as [t2|] eqn:E3; [|discriminate Hv]. cbn [mbind option_bind] in Hv.
  destruct (as_exp m2 t2 st1) as [[[m3 t3] st3]|] eqn:E4; [|discriminate Hv]. unfold as_exp in E4. cbn [mbind option_bind] in Hv.
  destruct (as_exp m3 t3 st3) as [[[m4 t4] st4]|] eqn:E5; [|discriminate Hv]. unfold as_exp in E5. cbn [mbind option_bind] in Hv.
  destruct (as_exp m4 t4 st4) eqn:E6; [discriminate Hv|]. unfold as_exp in E6. injection Hv as -> -> Hl.
  exists m1, st1, m2, F2, t2, m3, t3, st3, m4, t4, st4.
  split; [exact as_ok|]. split; [exact as_adm|]. split; [exact E1|]. split; [exact E2|]. split; [|exact (conj E4 (conj E5 (conj E6 as_fails)))].
  clear -E3 Hl. destruct (f_trees F2) as [|t [|t' l]]; [discriminate| |discriminate]. injection E3 as ->. reflexivity.
Qed.

Print Assumptions C127_result_valid.
Print Assumptions C127_step_ends.
Print Assumptions C127_assertion_refuted.
Print Assumptions C128_value.
Print Assumptions C128_move.
Print Assumptions C128_others.
Print Assumptions C128_value_refuted.
Print Assumptions C128_admissible_refuted.
Print Assumptions C128_learnfull_refuted.
Print Assumptions C129_goal.
Print Assumptions C129_optimal_refuted.
