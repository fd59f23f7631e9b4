(** C128 for -learnfull: what is learned for the states other than the current one. *)
From stdpp Require Import prelude.
From Coq Require Import ZArith Lia ZifyBool ZifyNat QArith Qabs Lqa.
From Verif Require Import Common.Orders BinHeap.Model BinHeap.Proofs.
From Verif Require Import Search.Domain Search.Model Search.Props Rta.Model.
From Verif Require Import Dta.Model Dta.Proofs Dta.Props.
Local Open Scope Z_scope.

(** The predecessors of a state that are stored are its predecessors. *)
Definition psound {D} (m : graph D) : Prop :=
  ∀ x p c, (p, c) ∈ g_preds m x → ∃ o : Op D, o ∈ ops p ∧ dest p o = x ∧ cost p o = c.

Ltac bd H := repeat (match type of H with
  | (match ?e with _ => _ end) = _ => destruct e eqn:?; try discriminate H
  | mbind _ ?e = _ => destruct e eqn:?; cbn [mbind option_bind] in H; try discriminate H
  end).

Lemma genops_psound D (n : St D) (os : list (Op D)) : ∀ m st m' st', genops D n os m st = (m', st') →
  (∀ o, o ∈ os → o ∈ ops n) → psound m → psound m'.
Proof.
  induction os as [|o os IH]; intros m st m' st' H Hos Hp; cbn [genops] in H; [by injection H as <- <-|].
  rewrite edge_eq in H. apply IH in H; [done|intros o' Ho'; apply Hos; by right|].
  intros x p c. cbn. unfold fset. case_decide as Hd; [|apply Hp]. subst x. rewrite elem_of_app, elem_of_list_singleton.
  intros [Hin|[= -> ->]]; [by apply Hp|]. exists o. split_and!; [apply Hos; by left|done|done].
Qed.
Lemma succs_psound D (n : St D) m st m' st' : succs D n m st = (m', st') → psound m → psound m'.
Proof.
  unfold succs. case_decide; [by intros [= <- <-]|]. destruct (genops _ _ _ _ _) as [m1 st1] eqn:E. intros [= <- <-] Hp.
  apply genops_psound in E; [|done|done]. exact E.
Qed.
Lemma relax_preds D cur s i o k c m t m' t' : relax D cur s i o k c m t = Some (m', t') → g_preds m' = g_preds m.
Proof.
  unfold relax. destruct (l_nodes t !! i) as [sn|]; [|done]. cbn [mbind option_bind]. case_decide; [by intros [= <- <-]|].
  destruct (Qltb _ 0); [done|]. destruct (match find_t _ _ _ with Some _ => _ | None => _ end) as [[ns j] skip].
  destruct skip; [by intros [= <- <-]|]. destruct (ns !! j) as [kn|]; [|done]. cbn [mbind option_bind]. destruct (_ || _); [done|].
  destruct (pushupdate _ _ _ _); [|done]. cbn [mbind option_bind]. by intros [= <- <-].
Qed.
Lemma relaxes_preds D cur s i os : ∀ m t m' t', relaxes D cur s i os m t = Some (m', t') → g_preds m' = g_preds m.
Proof.
  induction os as [|o os IH]; intros m t m' t' H; cbn [relaxes] in H; [by injection H as <- <-|].
  destruct (edge s o) as [[k c] r]. destruct (relax _ _ _ _ _ _ _ _ _) as [[m1 t1]|] eqn:E; [|done]. cbn [mbind option_bind] in H.
  apply IH in H. apply relax_preds in E. congruence.
Qed.
Lemma psound_preds {D} (m m' : graph D) : g_preds m' = g_preds m → psound m → psound m'.
Proof. intros He Hp x p c. rewrite He. apply Hp. Qed.
Lemma expand1_psound D lim cur m t st m' t' st' : expand1 D lim cur m t st = Some (m', t', st') → psound m → psound m'.
Proof.
  unfold expand1. intros H Hp. bd H; try (injection H as <- <- <-; done); try (by simplify_eq).
  all: try (repeat match goal with p : (_ * _)%type |- _ => destruct p end); simplify_eq.
  all: cbn [mbind option_bind] in *; bd H; simplify_eq; try done.
  all: try (repeat match goal with p : (_ * _)%type |- _ => destruct p end); simplify_eq; try done.
  all: match goal with E1 : succs _ _ _ _ = _, E2 : relaxes _ _ _ _ _ _ _ = _ |- _ =>
    apply succs_psound in E1; [|done]; apply relaxes_preds in E2; by apply (psound_preds _ _ E2) end.
Qed.
Lemma expands_psound D lim stop e : ∀ k j cur m F st m' F' st' b j', expands D lim stop e k j cur m F st = Some (m', F', st', b, j') → psound m → psound m'.
Proof.
  induction e as [|e IH]; intros k j cur m F st m' F' st' b j' H Hp; cbn [expands] in H; [by injection H as <- _ _ _ _|].
  destruct (stop k j); [by injection H as <- _ _ _ _|]. destruct (rreached lim st); [by injection H as <- _ _ _ _|].
  destruct (front _) as [i|]; [|done]. cbn [mbind option_bind] in H. destruct (f_trees F !! i) as [t|]; [|done]. cbn [mbind option_bind] in H.
  destruct (goalclosed D t); [by injection H as <- _ _ _ _|]. destruct (expand1 _ _ _ _ _ _) as [[[m1 t1] st1]|] eqn:E; [|done]. cbn [mbind option_bind] in H.
  destruct (update _ _ _); [|done]. cbn [mbind option_bind] in H. apply IH in H; [done|]. by apply expand1_psound in E.
Qed.
Lemma rounds_psound D lim stop go grain fuel : ∀ k r j cur m F st m' F' st',
  rounds D lim stop go grain fuel k r j cur m F st = Some (m', F', st') → psound m → psound m'.
Proof.
  induction fuel as [|fuel IH]; intros k r j cur m F st m' F' st' H Hp; cbn [rounds] in H; [done|].
  destruct (expands _ _ _ _ _ _ _ _ _ _) as [[[[[m1 F1] st1] ls] j1]|] eqn:E; [|done]. cbn [mbind option_bind] in H.
  apply expands_psound in E; [|done]. destruct (rreached lim st1); [by injection H as <- _ _|].
  destruct (front _) as [i|]; [|done]. cbn [mbind option_bind] in H. destruct (f_trees F1 !! i) as [t|]; [|done]. cbn [mbind option_bind] in H.
  destruct (l_goal t); [by injection H as <- _ _|]. destruct ls; [by injection H as <- _ _|].
  destruct (keepgoing _ _ _ _ _) as [[b F2]|]; [|done]. cbn [mbind option_bind] in H. destruct b; [|by injection H as <- _ _].
  by apply IH in H.
Qed.
Lemma plant_preds D cur os : ∀ m F m' F', plant D cur os m F = Some (m', F') → g_preds m' = g_preds m.
Proof.
  induction os as [|o os IH]; intros m F m' F' H; cbn [plant] in H; [by injection H as <- _|].
  destruct (edge cur o) as [[s c] r]. destruct (Qltb _ _); [done|]. destruct (mktree _ _ _ _ _ _) as [t|]; [|done]. cbn [mbind option_bind] in H.
  destruct (push _ _ _); [|done]. cbn [mbind option_bind] in H. apply IH in H. by rewrite H.
Qed.

(** Each value is the cost of a way plus a value of [h0] at its end. *)
Definition wayout {D} (h0 : St D → Q) (m : graph D) : Prop :=
  ∀ s, ∃ ss (os : list (Op D)) c x, walk (s :: ss) os c ∧ last (s :: ss) = Some x ∧ (g_h m s == inject_Z c + h0 x)%Q.

Lemma backups_way D h0 x ps : ∀ m ns q m' ns' q', backups D x ps m ns q = Some (m', ns', q') →
  (∀ p c, (p, c) ∈ ps → ∃ o : Op D, o ∈ ops p ∧ dest p o = x ∧ cost p o = c) → wayout h0 m → wayout h0 m' ∧ g_preds m' = g_preds m.
Proof.
  induction ps as [|[p c] ps IH]; intros m ns q m' ns' q' H Hps Hw; cbn [backups] in H; [by injection H as <- <- <-|].
  assert (Hps' : ∀ p c, (p, c) ∈ ps → ∃ o : Op D, o ∈ ops p ∧ dest p o = x ∧ cost p o = c) by (intros p' c' H'; apply Hps; by right).
  destruct (find_t D ns p) as [j|]; [|by apply IH in H]. destruct (ns !! j) as [sp|]; [|done]. cbn [mbind option_bind] in H.
  destruct (t_cl sp && _); [|by apply IH in H]. destruct (pushupdate _ _ _ _); [|done]. cbn [mbind option_bind] in H.
  apply IH in H; [done|done|]. intros s. destruct (decide (s = p)) as [->|Hne]; [|rewrite set_h_ne by done; apply Hw].
  rewrite set_h_eq. destruct (Hps p c) as (o & Ho & Hd & Hc); [by left|]. destruct (Hw x) as (ss & os & k & y & Hk & Hl & Hy).
  exists (x :: ss), (o :: os), (cost p o + k), y. split_and!.
  - subst x. by constructor.
  - by rewrite last_cons_cons.
  - rewrite Hy, inject_Z_plus, Hc. ring.
Qed.
Lemma lloop_way D h0 fuel : ∀ m ns q n m', lloop D fuel m ns q n = Some m' → psound m → wayout h0 m → wayout h0 m' ∧ g_preds m' = g_preds m.
Proof.
  induction fuel as [|fuel IH]; intros m ns q n m' H Hp Hw; cbn [lloop] in H; [done|].
  case_decide; [by injection H as <-|]. destruct (empty q); [by injection H as <-|].
  destruct (pop qsort q) as [[q1 [i|]]|]; [|done..]. cbn [mbind option_bind] in H.
  destruct (ns !! i) as [sn|]; [|done]. cbn [mbind option_bind] in H.
  destruct (backups _ _ _ _ _ _) as [[[m1 ns1] q2]|] eqn:E; [|done]. cbn [mbind option_bind] in H.
  apply (backups_way D h0) in E as [Hw1 He1]; [|intros p c; apply Hp|done].
  apply IH in H as [Hw2 He2]; [|by apply (psound_preds m)|done]. split; [done|congruence].
Qed.
Lemma learns_way D h0 fuel ts is : ∀ m m', learns D fuel m ts is = Some m' → psound m → wayout h0 m → wayout h0 m' ∧ g_preds m' = g_preds m.
Proof.
  induction is as [|i is IH]; intros m m' H Hp Hw; cbn [learns] in H; [by injection H as <-|].
  destruct (ts !! i) as [t|]; [|done]. cbn [mbind option_bind] in H. destruct (learn D fuel m t) as [m1|] eqn:E; [|done]. cbn [mbind option_bind] in H.
  unfold learn in E. destruct (append _ _ _) as [q|]; [|done]. cbn [mbind option_bind] in E. apply (lloop_way D h0) in E as [Hw1 He1]; [|done..].
  apply IH in H as [Hw2 He2]; [|by apply (psound_preds m)|done]. split; [done|congruence].
Qed.

(** With or without full learning: the value of each other state is no less than the cost of some way from it plus the value
    before the step at the end of that way.  The stored predecessors stay right (none are stored at first). *)
Theorem C128_learned D lim stop go grain full fuel k cur m st m' st' o s' : domain_ok D →
  step D lim stop go grain full fuel k cur m st = Some (m', st', o, s') → (∀ s, 0 <= g_h m s)%Q → psound m →
  psound m' ∧
  ∀ s, s ≠ cur → ∃ ss os c x, walk (s :: ss) os c ∧ last (s :: ss) = Some x ∧ (inject_Z c + g_h m x <= g_h m' s)%Q.
Proof.
  intros OK Hs Hpos Hps. unfold step in Hs. destruct (succs D cur m st) as [m0 st0] eqn:Es.
  pose proof (succs_psound _ _ _ _ _ _ Es Hps) as Hps0. apply succs_spec in Es as (Hh0 & Hc0 & Hx0).
  assert (minv D cur (g_h m) m0) as Hm0. { split; intros; rewrite Hh0; [done|lra..]. }
  destruct (plant_spec D OK cur (g_h m) (ops cur) [] m0 _ (start_finv _ _ _ _) Hm0 Hc0) as (m1 & F1 & Hp & HF1 & Hm1 & Hle1 & Hn1); [done|].
  rewrite Hp in Hs. cbn [mbind option_bind] in Hs. cbn [app] in HF1. apply plant_preds in Hp. pose proof (psound_preds _ _ Hp Hps0) as Hps1.
  destruct (rounds _ _ _ _ _ _ _ _ _ _ _ _ _) as [[[m2 F2] st2]|] eqn:Er; [|done]. cbn [mbind option_bind] in Hs.
  pose proof (rounds_psound _ _ _ _ _ _ _ _ _ _ _ _ _ _ _ _ Er Hps1) as Hps2.
  apply (rounds_spec D OK lim cur (g_h m)) with (os := ops cur) in Er as (HF2 & Hm2 & Hle2 & Hn2); [|done..].
  assert (Hend : ∀ m3 F3, psound m3 → wayout (g_h m2) m3 →
    (i ← front (f_lss F3); t ← f_trees F3 !! i; '(f, _) ← fg D t; Some (set_h D m3 cur (f * scale full)%Q, st2, l_op t, l_root t)) = Some (m', st', o, s') →
    psound m' ∧ ∀ s, s ≠ cur → ∃ ss os c x, walk (s :: ss) os c ∧ last (s :: ss) = Some x ∧ (inject_Z c + g_h m x <= g_h m' s)%Q).
  { intros m3 F3 Hps3 Hw. destruct (front (f_lss F3)) as [i|] eqn:Ef; [|done]. cbn [mbind option_bind].
    destruct (f_trees F3 !! i) as [t|] eqn:Et; [|done]. cbn [mbind option_bind].
    destruct (fg D t) as [[f g]|] eqn:Efg; [|done]. cbn [mbind option_bind]. intros [= <- <- <- <-]. split; [exact Hps3|].
    intros s Hne. rewrite set_h_ne by done. destruct (Hw s) as (ss & os & c & x & H1 & H2 & H3). exists ss, os, c, x. split_and!; [done..|].
    pose proof (mi_h0 _ _ _ _ Hm2 x). lra. }
  assert (wayout (g_h m2) m2) as Hw2. { intros s. exists [], [], 0, s. split_and!; [constructor|done|]. change (inject_Z 0) with 0%Q. ring. }
  destruct full.
  - destruct (learns D fuel m2 (f_trees F2) (arr (f_lss F2))) as [m3|] eqn:El; [|done]. cbn [mbind option_bind] in Hs.
    apply (learns_way D (g_h m2)) in El as [Hw3 He3]; [|done..]. destruct (reinit _ _) as [q|]; [|done]. cbn [mbind option_bind] in Hs.
    apply (Hend m3 (Forest (f_trees F2) q)); [by apply (psound_preds m2)|done|exact Hs].
  - cbn [mbind option_bind] in Hs. by apply (Hend m2 F2).
Qed.

(** A step that learns to which it applies: [C128_learnfull_refuted] uses it. *)
Example C128_learned_ex : psound lf_mem ∧ is_Some lf_step ∧ option_map (λ r, Qeq_bool (@g_h lf_dom r.1.1.1 2%nat) 101) lf_step = Some true.
Proof. split; [intros x p c H; by apply elem_of_nil in H|]. split; vm_compute; [eexists|]; reflexivity. Qed.
Print Assumptions C128_learned.
