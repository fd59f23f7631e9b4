(** C115: navigation in a visibility graph, with the distances as real numbers. *)
From stdpp Require Import prelude.
From Coq Require Import ZArith Lia ZifyBool ZifyNat QArith Reals Lra Rgeom Qreals.
From Verif.Geom Require Import Model Map.
From Verif.Visnav Require Import Model Graph Props.
Local Open Scope R_scope.

(** The Euclidean distance. *)
Definition euc (p q : pt) : R := dist_euc (Q2R (x p)) (Q2R (y p)) (Q2R (x q)) (Q2R (y q)).
Lemma euc_sym p q : euc p q = euc q p.
Proof. apply distance_symm. Qed.
Lemma euc_trans dx dy p q : euc (translatept dx dy p) (translatept dx dy q) = euc p q.
Proof. unfold euc, dist_euc, translatept. cbn [x y]. rewrite !Q2R_plus. f_equal. f_equal; f_equal; ring. Qed.
Lemma euc_nonneg p q : 0 <= euc p q.
Proof. apply sqrt_pos. Qed.
Lemma euc_refl p : euc p p = 0.
Proof. apply distance_refl. Qed.
Lemma euc_triangle p q r : euc p q <= euc p r + euc r q.
Proof. apply triangle. Qed.

(** The domains a user can set up: start and goal put into any graph. *)
Definition domainof (d : visnav R) (p0 p1 : pt) : Prop := ∃ g, reach euc g ∧ mkvisnav euc g p0 p1 = Some d.

Lemma domain_facts d p0 p1 : domainof d p0 p1 → reach euc (vgraph d) ∧ target d = p1 ∧ (finish d = S (start d))%nat ∧
  place (vgraph d) (start d) = Some p0 ∧ place (vgraph d) (finish d) = Some p1.
Proof.
  intros (g & Hr & E). unfold mkvisnav in E. apply bind_Some in E as ([g1 s] & E1 & E). apply bind_Some in E as ([g2 f] & E2 & [= <-]). cbn [vgraph target start finish].
  assert (reach euc g1) as Hr1 by by eapply reach_add. assert (reach euc g2) as Hr2 by by eapply reach_add.
  destruct (C114_added euc euc_sym euc_trans g p0 g1 s Hr E1) as (-> & Hl & _ & _ & Hp & _).
  destruct (C114_added euc euc_sym euc_trans g1 p1 g2 f Hr1 E2) as (-> & Hl' & _ & _ & Hp' & Hk & _).
  split; [done|]. split; [done|]. split; [done|]. split; [|done]. rewrite Hk by lia. done.
Qed.

(** Setting up works in every graph; start and goal are different vertices with the given points, and only the goal's vertex is a goal. *)
Theorem C115_ends g p0 p1 : reach euc g → ∃ d, mkvisnav euc g p0 p1 = Some d ∧ initialstate d ≠ finish d ∧
  place (vgraph d) (initialstate d) = Some p0 ∧ place (vgraph d) (finish d) = Some p1 ∧ ∀ s, isgoal d s = true ↔ s = finish d.
Proof.
  intros Hr. destruct (C113_add_defined euc euc_sym euc_trans g p0 Hr) as [g1 E1]. assert (reach euc g1) as Hr1 by by eapply reach_add.
  destruct (C113_add_defined euc euc_sym euc_trans g1 p1 Hr1) as [g2 E2].
  assert (mkvisnav euc g p0 p1 = Some (VisNav p1 (length (gverts g)) (length (gverts g1)) g2)) as E.
  { unfold mkvisnav. rewrite E1. cbn [mbind option_bind]. rewrite E2. done. }
  eexists. split; [exact E|]. destruct (domain_facts _ p0 p1 (ex_intro _ g (conj Hr E))) as (_ & _ & Hne & H1 & H2). unfold initialstate. split; [lia|].
  split; [done|]. split; [done|]. intros s. unfold isgoal. apply bool_decide_eq_true.
Qed.

(** Each operator costs the distance of its two vertices, and there is one back at the same cost. *)
Theorem C115_operators d p0 p1 s ops op : domainof d p0 p1 → operators d s = Some ops → op ∈ ops → ∃ p p' ops',
  place (vgraph d) s = Some p ∧ place (vgraph d) (state (apply op)) = Some p' ∧ state (apply op) ≠ s ∧
  cost (apply op) = euc p p' ∧ revcost (apply op) = euc p p' ∧
  operators d (state (apply op)) = Some ops' ∧ ∃ op', op' ∈ ops' ∧ state (apply op') = s ∧ cost (apply op') = revcost (apply op).
Proof.
  intros (Hr & _)%domain_facts Ho Hin. unfold operators in Ho. apply bind_Some in Ho as (v & Hv & [= <-]).
  destruct (C113_edges euc euc_sym euc_trans _ s v Hr Hv) as (_ & He). destruct (He op Hin) as (Hs & Hne & u & Hu & Hd). cbn [apply state cost revcost].
  exists (loc v), (loc u), (edges u). unfold place, operators. rewrite Hv, Hu. cbn [fmap option_fmap option_map mbind option_bind].
  split; [done|]. split; [done|]. split; [done|]. split; [done|]. split; [done|]. split; [done|].
  pose proof (C113_mirror euc euc_sym euc_trans (vgraph d) s (dst op) Hr) as Hm. unfold count in Hm. rewrite Hv, Hu in Hm.
  assert (op ∈ filter (λ e, dst e = dst op) (edges v)) as Hf by by apply elem_of_list_filter.
  destruct (filter (λ e : edge R, dst e = s) (edges u)) as [|op' l] eqn:Ef.
  { destruct (filter (λ e : edge R, dst e = dst op) (edges v)); [by apply elem_of_nil in Hf|done]. }
  assert (op' ∈ filter (λ e : edge R, dst e = s) (edges u)) as Hf' by (rewrite Ef; apply elem_of_list_here). apply elem_of_list_filter in Hf' as [Hs' Hin'].
  exists op'. split; [done|]. split; [done|].
  destruct (C113_edges euc euc_sym euc_trans _ (dst op) u Hr Hu) as (_ & He'). destruct (He' op' Hin') as (_ & _ & v' & Hv' & Hd'). rewrite Hs', Hv in Hv'. injection Hv' as <-.
  by rewrite Hd', Hd, euc_sym.
Qed.

(** The heuristic: zero at the goal, never negative, and consistent. *)
Theorem C115_consistent d p0 p1 : domainof d p0 p1 →
  h euc d (finish d) = Some 0 ∧
  ∀ s ops op, operators d s = Some ops → op ∈ ops → ∃ a b, h euc d s = Some a ∧ h euc d (state (apply op)) = Some b ∧ 0 <= a ∧ a <= cost (apply op) + b.
Proof.
  intros Hd. pose proof (domain_facts d p0 p1 Hd) as (Hr & Ht & _ & _ & Hf). split.
  - unfold h, place in *. destruct (gverts (vgraph d) !! finish d) as [v|]; [|done]. cbn in *. injection Hf as ->. by rewrite Ht, euc_refl.
  - intros s ops op Ho Hin. destruct (C115_operators d p0 p1 s ops op Hd Ho Hin) as (p & p' & _ & Hp & Hp' & _ & Hc & _).
    unfold h, place in *. apply fmap_Some in Hp as (v & Hv & ->). apply fmap_Some in Hp' as (u & Hu & ->). rewrite Hv, Hu. cbn [mbind option_bind].
    eexists _, _. split; [done|]. split; [done|]. split; [apply euc_nonneg|]. rewrite Hc. apply euc_triangle.
Qed.

(** A way through the graph and its cost. *)
Inductive way (d : visnav R) : nat → list (edge R) → R → nat → Prop :=
| way_nil s : way d s [] 0 s
| way_cons s es op ops c t : operators d s = Some es → op ∈ es → way d (state (apply op)) ops c t → way d s (op :: ops) (cost (apply op) + c) t.

(** Never more than the cost of a way to the goal. *)
Theorem C115_admissible d p0 p1 s ops c t : domainof d p0 p1 → (s < length (gverts (vgraph d)))%nat → way d s ops c t → isgoal d t = true →
  ∃ a, h euc d s = Some a ∧ a <= c.
Proof.
  intros Hd Hs Hw Hg. destruct (C115_consistent d p0 p1 Hd) as [H0 Hc]. unfold isgoal in Hg. apply bool_decide_eq_true in Hg.
  induction Hw as [s|s es op ops c t Ho Hin Hw IH].
  - subst. exists 0. split; [done|lra].
  - destruct (Hc s es op Ho Hin) as (a & b & Ha & Hb & _ & Hle). exists a. split; [done|]. destruct IH as (b' & Hb' & Hle'); [|done|].
    + unfold h in Hb. apply bind_Some in Hb as (v & Hv & _). by eapply lookup_lt_Some.
    + rewrite Hb in Hb'. injection Hb' as <-. lra.
Qed.
(** In particular no solution is shorter than the straight line. *)
Theorem C115_straight d p0 p1 ops c : domainof d p0 p1 → way d (initialstate d) ops c (finish d) → euc p0 p1 <= c.
Proof.
  intros Hd Hw. pose proof (domain_facts d p0 p1 Hd) as (Hr & Ht & _ & Hs & Hf).
  destruct (C115_admissible d p0 p1 (initialstate d) ops c (finish d) Hd) as (a & Ha & Hle); [|done|by apply bool_decide_eq_true_2|].
  - unfold place in Hs. apply fmap_Some in Hs as (v & Hv & _). by eapply lookup_lt_Some.
  - unfold h, place, initialstate in *. apply fmap_Some in Hs as (v & Hv & ->). rewrite Hv in Ha. cbn in Ha. injection Ha as <-. by rewrite <-Ht.
Qed.

(** ** The cost of a path *)
(** The states along a way, the first one left out. *)
Definition stops (ops : list (edge R)) : list nat := (λ op, state (apply op)) <$> ops.

Lemma pathloop_way d s ops c0 c t : way d s ops c t →
  pathloop Rplus s c0 (zip (stops ops) ops) = Some (t, c0 + c).
Proof.
  intros Hw. revert c0. induction Hw as [s|s es op ops c t Ho Hin Hw IH]; intros c0; cbn [stops fmap list_fmap zip zip_with pathloop]; [by rewrite Rplus_0_r|].
  rewrite decide_True by done. rewrite IH. by rewrite Rplus_assoc.
Qed.
Lemma reverse_zip {A B} (l : list A) (k : list B) : length l = length k → reverse (zip l k) = zip (reverse l) (reverse k).
Proof.
  revert k. induction l as [|a l IH]; intros [|b k] E; try done. cbn [zip zip_with]. rewrite !reverse_cons, IH by (cbn in E; lia).
  rewrite zip_with_app by (rewrite !reverse_length; cbn in E; lia). done.
Qed.

(** A path to the goal, given backwards as the search algorithms give it (the states may go on behind the last operator), gets the cost of its operators. *)
Theorem C115_path_cost d ops c rest : way d (initialstate d) ops c (finish d) →
  pathcost Rplus 0 d (reverse (stops ops) ++ rest) (reverse ops) = Some c.
Proof.
  intros Hw. unfold pathcost. assert (length (stops ops) = length ops) as Hl by apply fmap_length.
  rewrite decide_False by (rewrite app_length, !reverse_length, Hl; lia).
  assert (zip (reverse (stops ops) ++ rest) (reverse ops) = zip (reverse (stops ops)) (reverse ops)) as ->.
  { rewrite <-(app_nil_r (reverse ops)). rewrite zip_with_app by (by rewrite !reverse_length). rewrite app_nil_r. destruct rest; cbn; by rewrite app_nil_r. }
  rewrite reverse_zip by (by rewrite !reverse_length). rewrite !reverse_involutive, (pathloop_way d _ _ _ c _ Hw). cbn [mbind option_bind].
  unfold isgoal. rewrite bool_decide_eq_true_2 by done. by rewrite Rplus_0_l.
Qed.

Lemma pathloop_sound s c0 l t c : pathloop Rplus s c0 l = Some (t, c) →
  Forall (λ so : nat * edge R, so.1 = dst so.2) l ∧ t = default s (fst <$> last l) ∧ c = foldl (λ c so, c + dist so.2) c0 l.
Proof.
  revert s c0. induction l as [|[u op] l IH]; intros s c0; cbn [pathloop].
  - intros [= <- <-]. done.
  - destruct (decide _) as [Hd|]; [|done]. intros (H1 & H2 & H3)%IH. split; [constructor; [done|done]|]. split; [|done].
    rewrite H2. destruct l as [|a l]; [done|]. rewrite last_cons_cons. destruct (last (a :: l)) eqn:E; [done|]. by apply last_None in E.
Qed.
Lemma foldl_reversed {A B} (f : B → A → B) c l : foldl f c (reverse l) = foldr (λ a c, f c a) c l.
Proof. induction l as [|a l IH]; [done|]. rewrite reverse_cons, foldl_app, IH. done. Qed.
(** Whenever a cost is returned, each state of the path is where its operator leads and the last one is the goal. *)
Theorem C115_path_checked d path ops c : pathcost Rplus 0 d path ops = Some c →
  (length ops ≤ length path)%nat ∧ (∀ i s op, path !! i = Some s → ops !! i = Some op → s = state (apply op)) ∧
  c = foldr (λ op c, c + cost (apply op)) 0 ops ∧
  match path, ops with s :: _, _ :: _ => s = finish d | _, _ => initialstate d = finish d end.
Proof.
  unfold pathcost. destruct (decide _) as [|Hlen]; [done|]. intros E. apply bind_Some in E as ([t c'] & E & Hg). destruct (isgoal d t) eqn:Eg; [|done]. injection Hg as ->.
  unfold isgoal in Eg. apply bool_decide_eq_true in Eg as ->. apply pathloop_sound in E as (H1 & H2 & H3). split; [lia|]. split; [|split].
  - intros i s op Hs Ho. apply Forall_reverse in H1. rewrite Forall_forall in H1. apply (H1 (s, op)). apply elem_of_list_lookup. exists i.
    rewrite reverse_involutive. apply lookup_zip_with_Some. eauto.
  - rewrite H3, foldl_reversed. clear -Hlen. revert path Hlen. induction ops as [|op ops IH]; intros [|s path] Hlen; cbn [length] in Hlen; try done; try lia.
    cbn [zip zip_with foldr apply cost snd]. f_equal. apply IH. lia.
  - rewrite last_reverse in H2. destruct path as [|s path], ops as [|op ops]; cbn in *; try done.
Qed.

(** ** Example: around the square *)
Lemma yard_edges {C} (dd : pt → pt → C) : ∃ d, (pm ← yard; g ← build dd pm; mkvisnav dd g (P 0 15) (P 30 15)) = Some d ∧ start d = 4%nat ∧ finish d = 5%nat ∧
  operators d 4 = Some [Edge 4 0 (dd (P 10 10) (P 0 15)); Edge 4 1 (dd (P 10 20) (P 0 15))] ∧
  Edge 0 3 (dd (P 10 10) (P 20 10)) ∈ default [] (operators d 0) ∧ Edge 3 5 (dd (P 20 10) (P 30 15)) ∈ default [] (operators d 3).
Proof. eexists. split; [vm_compute; reflexivity|]. split_and!; try done; cbn; set_solver. Qed.
Example yard_route : ∃ pm g d c, yard = Some pm ∧ build euc pm = Some g ∧ mkvisnav euc g (P 0 15) (P 30 15) = Some d ∧ domainof d (P 0 15) (P 30 15) ∧
  ∃ ops, stops ops = [0; 3; 5]%nat ∧ way d (initialstate d) ops c (finish d) ∧ pathcost Rplus 0 d [5; 3; 0; 4]%nat (reverse ops) = Some c ∧ euc (P 0 15) (P 30 15) <= c.
Proof.
  destruct (yard_edges euc) as (d & E & Es & Ef & H4 & H0 & H3). apply bind_Some in E as (pm & Ey & E). apply bind_Some in E as (g & Eg & E).
  assert (domainof d (P 0 15) (P 30 15)) as Hd. { exists g. split; [by eapply reach_build|done]. }
  destruct (operators d 0) as [es0|] eqn:E0; [|by apply elem_of_nil in H0]. destruct (operators d 3) as [es3|] eqn:E3; [|by apply elem_of_nil in H3]. cbn [default] in H0, H3.
  set (ops := [Edge 4 0 (euc (P 10 10) (P 0 15)); Edge 0 3 (euc (P 10 10) (P 20 10)); Edge 3 5 (euc (P 20 10) (P 30 15))]).
  assert (way d (initialstate d) ops (euc (P 10 10) (P 0 15) + (euc (P 10 10) (P 20 10) + (euc (P 20 10) (P 30 15) + 0))) (finish d)) as Hw.
  { unfold initialstate, ops. rewrite Es, Ef. eapply way_cons; [exact H4|apply elem_of_list_here|]. eapply way_cons; [exact E0|exact H0|].
    eapply way_cons; [exact E3|exact H3|]. apply way_nil. }
  exists pm, g, d, (euc (P 10 10) (P 0 15) + (euc (P 10 10) (P 20 10) + (euc (P 20 10) (P 30 15) + 0))).
  split; [done|]. split; [done|]. split; [done|]. split; [done|]. exists ops. split; [done|]. split; [exact Hw|]. split; [exact (C115_path_cost d ops _ [4%nat] Hw)|].
  exact (C115_straight d _ _ ops _ Hd Hw).
Qed.

Print Assumptions C115_ends.
Print Assumptions C115_operators.
Print Assumptions C115_consistent.
Print Assumptions C115_admissible.
Print Assumptions C115_straight.
Print Assumptions C115_path_cost.
Print Assumptions C115_path_checked.
