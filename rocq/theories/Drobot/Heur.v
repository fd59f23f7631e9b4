(** The table of shortest paths and the heuristic of the dock robot domain: C63, C77. *)
From stdpp Require Import prelude sorting.
From Coq Require Import ZArith Lia ZifyBool ZifyNat.
From Verif Require Import Drobot.Model Drobot.Props.

(** ** Specification *)

(** The cost of moving directly from one location to another. *)
Definition direct (d : drobot) (i j : nat) : xcost := match adj d !! i ≫= λ r, r !! j with Some c => c | None => None end.
(** A route and its cost. *)
Inductive route (d : drobot) : nat → nat → Z → Prop :=
  | route_nil i : route d i i 0
  | route_cons i j k c c' : j < nlocs d → direct d i j = Some c → route d j k c' → route d i k (c + c').

Definition nonneg_costs (d : drobot) : Prop := ∀ i j c, direct d i j = Some c → (0 ≤ c)%Z.

(** "Not more than". *)
Definition xle (a b : xcost) : Prop :=
  match a, b with _, None => True | None, Some _ => False | Some a, Some b => (a ≤ b)%Z end.

(** [x] is the cost of a cheapest route. *)
Definition cheapest (d : drobot) (i j : nat) (x : xcost) : Prop :=
  (∀ c, x = Some c → route d i j c) ∧ ∀ c, route d i j c → xle x (Some c).

(** ** Costs *)
Lemma xle_refl a : xle a a. Proof. destruct a; simpl; [lia|done]. Qed.
Lemma xle_trans a b c : xle a b → xle b c → xle a c.
Proof. destruct a, b, c; simpl; try done; lia. Qed.
Lemma xadd_mono a a' b b' : xle a a' → xle b b' → xle (xadd a b) (xadd a' b').
Proof. destruct a, a', b, b'; simpl; try done; lia. Qed.
Lemma xadd_comm a b : xadd a b = xadd b a. Proof. destruct a, b; simpl; try done. f_equal. lia. Qed.
Lemma xadd_assoc a b c : xadd a (xadd b c) = xadd (xadd a b) c.
Proof. destruct a, b, c; simpl; try done. f_equal. lia. Qed.
Lemma xadd_0 a : xadd (Some 0%Z) a = a. Proof. by destruct a. Qed.
Lemma xlt_spec a b : (xlt a b = true ∧ xle a b) ∨ (xlt a b = false ∧ xle b a).
Proof.
  destruct a as [a|], b as [b|]; simpl; [|by left|by right|by right].
  destruct (Z.ltb_spec a b); [left|right]; split; try done; lia.
Qed.

(** ** Routes that stay below [k] in between *)
Inductive below (d : drobot) (k : nat) : nat → nat → Z → Prop :=
  | below_nil i : below d k i i 0
  | below_one i j c : direct d i j = Some c → below d k i j c
  | below_cons i m j c c' : m < k → direct d i m = Some c → below d k m j c' → below d k i j (c + c').
Lemma below_nonneg d k i j c : nonneg_costs d → below d k i j c → (0 ≤ c)%Z.
Proof. intros Hn. induction 1; [lia|by eapply Hn|]. specialize (Hn _ _ _ H0). lia. Qed.
Lemma below_split d k i j c : nonneg_costs d → below d (S k) i j c →
  below d k i j c ∨ ∃ c1 c2, below d k i k c1 ∧ below d k k j c2 ∧ (c1 + c2 ≤ c)%Z.
Proof.
  intros Hn. induction 1 as [i|i j c He|i m j c c' Hm He Hb IH].
  - left. constructor.
  - left. by constructor.
  - destruct (decide (m = k)) as [->|Hne].
    + right. destruct IH as [Hb'|(c1 & c2 & H1 & H2 & Hle)].
      * exists c, c'. split_and!; [by constructor|done|lia].
      * exists c, c2. split_and!; [by constructor|done|]. pose proof (below_nonneg _ _ _ _ _ Hn H1). lia.
    + destruct IH as [Hb'|(c1 & c2 & H1 & H2 & Hle)].
      * left. apply (below_cons _ _ _ m); [lia|done|done].
      * right. exists (c + c1)%Z, c2. split_and!; [|done|lia]. apply (below_cons _ _ _ m); [lia|done|done].
Qed.
Lemma below_route d k i j c : k ≤ nlocs d → j < nlocs d → below d k i j c → route d i j c.
Proof.
  intros Hk Hj. induction 1 as [i|i j c He|i m j c c' Hm He Hb IH].
  - constructor.
  - replace c with (c + 0)%Z by lia. eapply route_cons; [done|done|constructor].
  - apply (route_cons _ _ m); [lia|done|auto].
Qed.
Lemma route_below d i j c : route d i j c → below d (nlocs d) i j c.
Proof. induction 1; [constructor|]. by eapply below_cons. Qed.
Lemma route_app d i j k c c' : route d i j c → route d j k c' → route d i k (c + c').
Proof.
  induction 1 as [i|i m j c1 c2 Hm He Hr IH]; intros Hr'; [done|].
  replace (c1 + c2 + c')%Z with (c1 + (c2 + c'))%Z by lia. apply (route_cons _ _ m); [done|done|auto].
Qed.

(** ** The table *)
Section table.
Context (d : drobot) (Hd : good_drobot d) (Hn : nonneg_costs d).
Notation n := (nlocs d).
Notation table := (list (xcost * xcost)).

Definition entry (t : table) (i j : nat) : xcost := match tget n t i j with Some e => e.1 | None => None end.
Record sound (t : table) : Prop := {
  so_len : length t = n * n;
  so_route i j c : i < n → j < n → entry t i j = Some c → route d i j c;
}.
Definition complete (k : nat) (t : table) : Prop :=
  ∀ i j c, i < n → j < n → below d k i j c → xle (entry t i j) (Some c).
Definition improves (t' t : table) : Prop := ∀ i j, i < n → j < n → xle (entry t' i j) (entry t i j).

Lemma index_lt i j : i < n → j < n → i * n + j < n * n.
Proof. nia. Qed.
Lemma index_inj i j i' j' : j < n → j' < n → i * n + j = i' * n + j' → i = i' ∧ j = j'.
Proof.
  intros Hj Hj' Heq. destruct (lt_eq_lt_dec i i') as [[Hlt| ->]|Hlt]; [exfalso; nia|lia|exfalso; nia].
Qed.
Lemma tget_some (t : table) i j : length t = n * n → i < n → j < n → is_Some (tget n t i j).
Proof. intros Hlen Hi Hj. apply lookup_lt_is_Some_2. rewrite Hlen. by apply index_lt. Qed.

Lemma relax_spec t k i j : sound t → k < n → i < n → j < n →
  ∃ t', relax (un d) n t k i j = Some t' ∧ sound t' ∧ improves t' t ∧
    xle (entry t' i j) (xadd (entry t i k) (entry t k j)).
Proof.
  intros Hs Hk Hi Hj. unfold relax. pose proof (so_len t Hs) as Hlen.
  destruct (tget_some t i k Hlen Hi Hk) as [a Ha], (tget_some t k j Hlen Hk Hj) as [b Hb], (tget_some t i j Hlen Hi Hj) as [o Ho].
  rewrite Ha, Hb, Ho. cbn [mbind option_bind]. unfold wr. rewrite Hlen.
  rewrite bool_decide_true by (by apply index_lt). eexists. split; [done|].
  set (new := (if xlt (xadd a.1 b.1) o.1 then xadd a.1 b.1 else o.1)).
  match goal with |- context [<[_ := ?e]> t] => set (e' := e) end.
  assert (Hget : ∀ i' j', i' < n → j' < n → entry (<[i * n + j := e']> t) i' j' = if decide (i' = i ∧ j' = j) then new else entry t i' j').
  { intros i' j' Hi' Hj'. unfold entry, tget. case_decide as Hd'.
    - destruct Hd' as [-> ->]. rewrite list_lookup_insert; [done|]. rewrite Hlen. by apply index_lt.
    - rewrite list_lookup_insert_ne; [done|]. intros Heq. apply Hd'. apply index_inj in Heq as [-> ->]; done. }
  assert (Ea : entry t i k = a.1) by (unfold entry; by rewrite Ha).
  assert (Eb : entry t k j = b.1) by (unfold entry; by rewrite Hb).
  assert (Eo : entry t i j = o.1) by (unfold entry; by rewrite Ho).
  assert (Hnew : xle new (xadd a.1 b.1) ∧ xle new o.1 ∧ (new = o.1 ∨ new = xadd a.1 b.1)).
  { unfold new. destruct (xlt_spec (xadd a.1 b.1) o.1) as [[-> ?]|[-> ?]]; split_and!; auto using xle_refl. }
  destruct Hnew as (Hn1 & Hn2 & Hn3). split_and!.
  - split; [by rewrite insert_length|]. intros i' j' c Hi' Hj'. rewrite Hget by done. case_decide as Hd'; [|by apply Hs].
    destruct Hd' as [-> ->]. intros Hc. destruct Hn3 as [Hn3|Hn3]; rewrite Hn3 in Hc.
    + apply (so_route t Hs); [done|done|congruence].
    + destruct a.1 as [ca|] eqn:E1; [|done]. destruct b.1 as [cb|] eqn:E2; [|done]. simpl in Hc. simplify_eq.
      apply (route_app _ _ k); by apply (so_route t Hs).
  - intros i' j' Hi' Hj'. rewrite Hget by done. case_decide as Hd'; [|apply xle_refl]. destruct Hd' as [-> ->]. by rewrite Eo.
  - rewrite Hget by done. rewrite decide_True by done. by rewrite Ea, Eb.
Qed.

Lemma improves_refl t : improves t t. Proof. intros ? ? ? ?. apply xle_refl. Qed.
Lemma improves_trans t1 t2 t3 : improves t1 t2 → improves t2 t3 → improves t1 t3.
Proof. intros H1 H2 i j Hi Hj. eapply xle_trans; [by apply H1|by apply H2]. Qed.
Lemma improves_complete k t t' : improves t' t → complete k t → complete k t'.
Proof. intros Hi Hc i j c Hi' Hj' Hb. eapply xle_trans; [by apply Hi|by apply Hc]. Qed.

Lemma relaxes_app u m t l1 l2 : relaxes u m t (l1 ++ l2) = (t' ← relaxes u m t l1; relaxes u m t' l2).
Proof.
  revert t. induction l1 as [|[[k i] j] l1 IH]; intros t; [done|]. simpl. destruct (relax u m t k i j); [|done]. simpl. apply IH.
Qed.

Lemma phase_spec k (ij : list (nat * nat)) t : k < n → (∀ i j, (i, j) ∈ ij → i < n ∧ j < n) → sound t → complete k t →
  ∃ t', relaxes (un d) n t ((λ p, (k, p.1, p.2)) <$> ij) = Some t' ∧ sound t' ∧ improves t' t ∧
    ∀ i j c1 c2, (i, j) ∈ ij → below d k i k c1 → below d k k j c2 → xle (entry t' i j) (Some (c1 + c2)%Z).
Proof.
  intros Hk. revert t. induction ij as [|[i j] ij IH]; intros t Hr Hs Hc.
  { exists t. split_and!; [done|done|apply improves_refl|]. by intros ???? ?%elem_of_nil. }
  rewrite fmap_cons. cbn [relaxes fst snd]. destruct (Hr i j) as [Hi Hj]; [left|].
  destruct (relax_spec t k i j Hs Hk Hi Hj) as (t1 & -> & Hs1 & Hi1 & He1). cbn [mbind option_bind].
  destruct (IH t1) as (t' & Hrun & Hs' & Hi' & He'); [|done|by eapply improves_complete|].
  { intros i' j' ?. apply Hr. by right. }
  exists t'. split_and!; [done|done|by eapply improves_trans|].
  intros i' j' c1 c2 [[= -> ->]|Hin]%elem_of_cons Hb1 Hb2; [|by eapply He'].
  eapply xle_trans; [by apply Hi'|]. eapply xle_trans; [exact He1|].
  change (Some (c1 + c2)%Z) with (xadd (Some c1) (Some c2)). apply xadd_mono; by apply Hc.
Qed.

Lemma phases_spec m t : m ≤ n → sound t → complete 0 t →
  ∃ t', relaxes (un d) n t (flat_map (λ k, flat_map (λ i, map (λ j, (k, i, j)) (seq 0 n)) (seq 0 n)) (seq 0 m)) = Some t' ∧
    sound t' ∧ complete m t'.
Proof.
  intros Hm Hs Hc. induction m as [|m IH]; [by exists t|].
  rewrite seq_S, flat_map_app, relaxes_app. destruct IH as (t1 & -> & Hs1 & Hc1); [lia|]. cbn [mbind option_bind].
  simpl flat_map. rewrite app_nil_r.
  set (ij := flat_map (λ i, map (λ j, (i, j)) (seq 0 n)) (seq 0 n)).
  assert (Hij : flat_map (λ i, map (λ j, (m, i, j)) (seq 0 n)) (seq 0 n) = (λ p, (m, p.1, p.2)) <$> ij).
  { unfold ij. generalize (seq 0 n) at 2 4. intros l. induction l as [|i l IHl]; [done|]. simpl. rewrite fmap_app, IHl. f_equal.
    change (map ?f ?x) with (f <$> x). rewrite <-list_fmap_compose. done. }
  assert (Hin : ∀ i j, (i, j) ∈ ij ↔ i < n ∧ j < n).
  { intros i j. unfold ij. rewrite elem_of_flat_map. split.
    - intros (i' & Hi & (j' & [= -> ->] & Hj)%elem_of_map). apply elem_of_seq in Hi, Hj. lia.
    - intros [Hi Hj]. exists i. split; [apply elem_of_seq; lia|]. apply elem_of_map. exists j. split; [done|]. apply elem_of_seq. lia. }
  rewrite Hij. destruct (phase_spec m ij t1) as (t2 & Hrun & Hs2 & Hi2 & He2); [lia|apply Hin|done|done|].
  exists t2. split_and!; [done|done|]. intros i j c Hi Hj Hb.
  destruct (below_split d m i j c Hn Hb) as [Hb'|(c1 & c2 & H1 & H2 & Hle)].
  - eapply xle_trans; [by apply Hi2|]. by apply Hc1.
  - eapply xle_trans; [eapply He2; [by apply Hin|done|done]|]. done.
Qed.

Lemma direct_some i j : i < n → j < n → adj d !! i ≫= (λ r, r !! j) = Some (direct d i j).
Proof.
  intros Hi Hj. unfold direct. destruct (lookup_lt_is_Some_2 (adj d) i) as [r Hr]; [rewrite (gd_adj d Hd); done|].
  rewrite Hr. cbn [mbind option_bind]. destruct (lookup_lt_is_Some_2 r j) as [c Hc]; [rewrite (gd_row d Hd i r Hr); done|].
  by rewrite Hc.
Qed.

Lemma mapM_lookup {A B} (f : A → option B) l l' i x : mapM f l = Some l' → l !! i = Some x → ∃ y, l' !! i = Some y ∧ f x = Some y.
Proof. intros H%mapM_Some Hi. destruct (Forall2_lookup_l _ _ _ _ _ H Hi) as (y & ? & ?). eauto. Qed.

Lemma pairs_length m : length (flat_map (λ i, map (λ j, (i, j)) (seq 0 n)) (seq 0 m)) = m * n.
Proof.
  induction m as [|m IH]; [done|]. rewrite seq_S, flat_map_app, app_length, IH. simpl.
  rewrite app_nil_r, map_length, seq_length. lia.
Qed.
Lemma pairs_lookup m i j : i < m → j < n → flat_map (λ i, map (λ j, (i, j)) (seq 0 n)) (seq 0 m) !! (i * n + j) = Some (i, j).
Proof.
  pose proof pairs_length as Hlen.
  induction m as [|m IH]; intros Hi Hj; [lia|]. rewrite seq_S, flat_map_app. simpl. rewrite app_nil_r.
  destruct (decide (i = m)) as [->|].
  - rewrite lookup_app_r by (rewrite Hlen; lia). rewrite Hlen. replace (m * n + j - m * n) with j by lia.
    change (map ?f ?x) with (f <$> x). rewrite list_lookup_fmap, lookup_seq_lt by done. done.
  - rewrite lookup_app_l by (rewrite Hlen; nia). apply IH; [lia|done].
Qed.

Lemma inittable_spec : ∃ t, inittable d = Some t ∧ sound t ∧ complete 0 t.
Proof.
  unfold inittable. set (ps := flat_map _ _). match goal with |- context [mapM ?f ps] => set (g := f) end.
  assert (Hps : ∀ i j, (i, j) ∈ ps ↔ i < n ∧ j < n).
  { intros i j. unfold ps. rewrite elem_of_flat_map. split.
    - intros (i' & Hi & (j' & [= -> ->] & Hj)%elem_of_map). apply elem_of_seq in Hi, Hj. lia.
    - intros [Hi Hj]. exists i. split; [apply elem_of_seq; lia|]. apply elem_of_map. exists j. split; [done|]. apply elem_of_seq. lia. }
  assert (Hall : Forall (λ p, is_Some (g p)) ps).
  { apply Forall_forall. intros [i j] Hij. apply Hps in Hij as [Hi Hj]. unfold g. rewrite direct_some by done. by eexists. }
  apply mapM_is_Some in Hall as [t Ht]. exists t. split; [done|].
  assert (Hlen : length t = n * n).
  { apply mapM_length in Ht. rewrite <-Ht. apply pairs_length. }
  assert (He : ∀ i j, i < n → j < n → entry t i j = if decide (i = j) then Some 0%Z else direct d i j).
  { intros i j Hi Hj. destruct (mapM_lookup g ps t (i * n + j) (i, j) Ht) as (y & Hy & Hg); [by apply pairs_lookup|].
    unfold entry, tget. rewrite Hy. unfold g in Hg. rewrite direct_some in Hg by done. cbn [mbind option_bind] in Hg.
    case_bool_decide as Hij; [subst|]; simplify_eq; [by rewrite decide_True|].
    rewrite decide_False by done. destruct (direct d i j); by simplify_eq/=. }
  split.
  - split; [done|]. intros i j c Hi Hj. rewrite He by done. case_decide; [subst; intros [= <-]; constructor|].
    intros Hc. replace c with (c + 0)%Z by lia. eapply route_cons; [done|done|constructor].
  - intros i j c Hi Hj Hb. rewrite He by done. case_decide as Hij.
    + simpl. by eapply below_nonneg.
    + inversion Hb; subst; [done| |lia]. rewrite H. apply xle_refl.
Qed.

Lemma initheuristic_spec : ∃ t, initheuristic d = Some t ∧ length t = n * n ∧
  ∀ i j, i < n → j < n → ∃ e, tget n t i j = Some e ∧ cheapest d i j e.1.
Proof.
  destruct inittable_spec as (t0 & Ht0 & Hs0 & Hc0). unfold initheuristic. rewrite Ht0. cbn [mbind option_bind].
  destruct (phases_spec n t0) as (t & Hrun & Hs & Hc); [done..|]. exists t. split; [done|]. split; [apply Hs|].
  intros i j Hi Hj. destruct (tget_some t i j (so_len t Hs) Hi Hj) as [e He]. exists e. split; [done|].
  assert (Hent : entry t i j = e.1) by (unfold entry; by rewrite He). split.
  - intros c Hc'. apply (so_route t Hs); [done|done|congruence].
  - intros c Hr. rewrite <-Hent. apply Hc; [done|done|]. by apply route_below.
Qed.
End table.

(** The table is computed, and its costs are those of the cheapest routes, infinite where there is
    no route. *)
Theorem C63_shortest_paths d : good_drobot d → nonneg_costs d →
  ∃ t, initheuristic d = Some t ∧ length t = nlocs d * nlocs d ∧
    ∀ i j, i < nlocs d → j < nlocs d → ∃ e, t !! (i * nlocs d + j) = Some e ∧ cheapest d i j e.1.
Proof. apply initheuristic_spec. Qed.

(** The numbers of steps in the same table are not those of the cheapest routes: they can be too
    small and too big. *)
Definition ex_near : drobot := Drobot 1 3 0 [1; 1; 1] [1; 1; 1]
  [[None; Some 50; Some 30]; [Some 50; None; Some 30]; [Some 30; Some 30; None]]%Z [].
Definition ex_far : drobot := Drobot 1 3 0 [1; 1; 1] [1; 1; 1]
  [[None; Some 500; Some 100]; [Some 500; None; Some 100]; [Some 100; Some 100; None]]%Z [].
Theorem C63_steps_refuted :
  (∃ t, initheuristic ex_near = Some t ∧ t !! 1 = Some (Some 50, Some 5)%Z) ∧
  (∃ t, initheuristic ex_far = Some t ∧ t !! 1 = Some (Some 200, Some 1)%Z) ∧
  direct ex_near 0 1 = Some 50%Z ∧ direct ex_far 0 1 = Some 500%Z.
Proof. split_and!; [eexists; split; [vm_compute; reflexivity|vm_compute; reflexivity]..|done|done]. Qed.

(** ** The heuristic *)

(** A plan and its cost. *)
Inductive plan (d : drobot) : state → list oper → state → Z → Prop :=
  | plan_done s : plan d s [] s 0
  | plan_step s os o e c rest t c' : operators d s = Some os → o ∈ os → mkedge d s o = Some e → a_cost e.1 = Some c →
      plan d (a_state e.1) rest t c' → plan d s (o :: rest) t (c + c').

Definition zsum (l : list Z) : Z := foldr Z.add 0%Z l.
Lemma zsum_cons x l : zsum (x :: l) = (x + zsum l)%Z.
Proof. done. Qed.
Lemma zsum_app l l' : zsum (l ++ l') = (zsum l + zsum l')%Z.
Proof. induction l as [|x l IH]; simpl; [done|]. unfold zsum in *. simpl. rewrite IH. lia. Qed.
Lemma zsum_perm l l' : l ≡ₚ l' → zsum l = zsum l'.
Proof. induction 1; unfold zsum in *; simpl; lia. Qed.

Lemma zsum_zero l : (∀ x, x ∈ l → x = 0%Z) → zsum l = 0%Z.
Proof.
  induction l as [|x l IH]; intros H; [done|]. unfold zsum in *. cbn [foldr]. rewrite (H x) by left.
  rewrite IH; [done|]. intros y Hy. apply H. by right.
Qed.

(** What has to be done about a box at location [i]: [w] if it has to leave. *)
Definition hbox (d : drobot) (i b : nat) (w : Z) : Z := if decide (astray d (i, b)) then w else 0%Z.
Definition hstack (d : drobot) (i : nat) (st : pile) : Z :=
  zsum (imap (λ k b, hbox d i b (PopCostFact d * (Z.of_nat k + 2) + LoadCost d)) st).
Definition hloc (d : drobot) (i : nat) (l : loc) : Z :=
  (zsum ((λ b, hbox d i b (LoadCost d)) <$> cranes l) + zsum (hstack d i <$> piles l))%Z.
Fixpoint hsum (d : drobot) (i : nat) (ls : list loc) : Z :=
  match ls with [] => 0 | l :: ls => hloc d i l + hsum d (S i) ls end%Z.

Lemma hstack_snoc d i st b :
  hstack d i (st ++ [b]) = (hstack d i st + hbox d i b (PopCostFact d * (Z.of_nat (length st) + 2) + LoadCost d))%Z.
Proof. unfold hstack. rewrite imap_app, zsum_app. simpl. unfold zsum. simpl. rewrite Nat.add_0_r. lia. Qed.
Lemma hsum_insert d i ls j l l' : ls !! j = Some l →
  hsum d i (<[j := l']> ls) = (hsum d i ls - hloc d (i + j) l + hloc d (i + j) l')%Z.
Proof.
  revert i j. induction ls as [|x ls IH]; intros i j Hj; [done|]. destruct j as [|j]; simpl in Hj.
  - simplify_eq. rewrite Nat.add_0_r. cbn [insert list_insert hsum]. simpl. lia.
  - change (<[S j := l']> (x :: ls)) with (x :: <[j := l']> ls). cbn [hsum]. rewrite (IH (S i) j Hj).
    replace (i + S j) with (S i + j) by lia. lia.
Qed.

Section heuristic.
Context (d : drobot) (Hd : good_drobot d) (Hn : nonneg_costs d) (Hun : (0 ≤ un d)%Z).
Context (t : list (xcost * xcost)) (Ht : initheuristic d = Some t).
Notation n := (nlocs d).

Definition dist (i j : nat) : xcost := entry d t i j.
Lemma dist_cheapest i j : i < n → j < n → ∃ e, tget n t i j = Some e ∧ e.1 = dist i j ∧ cheapest d i j (dist i j).
Proof.
  intros Hi Hj. destruct (initheuristic_spec d Hd Hn) as (t' & Ht' & _ & Hc). assert (t' = t) as -> by congruence.
  destruct (Hc i j Hi Hj) as (e & He & Hch). exists e. unfold dist, entry. rewrite He. done.
Qed.
Lemma dist_self i : i < n → xle (dist i i) (Some 0%Z).
Proof. intros Hi. destruct (dist_cheapest i i Hi Hi) as (_ & _ & _ & _ & Hle). apply Hle. constructor. Qed.
Lemma dist_triangle i j k c : i < n → j < n → k < n → direct d i j = Some c → xle (dist i k) (xadd (Some c) (dist j k)).
Proof.
  intros Hi Hj Hk Hc. destruct (dist_cheapest i k Hi Hk) as (_ & _ & _ & _ & Hle).
  destruct (dist_cheapest j k Hj Hk) as (_ & _ & _ & Hr & _). destruct (dist j k) as [c'|]; [|by destruct (dist i k)].
  simpl. apply Hle. eapply route_cons; [exact Hj|done|by apply Hr].
Qed.

Fixpoint dsum (bl : list nat) (b : nat) (gs : list (option nat)) : xcost :=
  match gs with
  | [] => Some 0%Z
  | None :: gs => dsum bl (S b) gs
  | Some g :: gs => xadd (dist (default 0 (bl !! b)) g) (dsum bl (S b) gs)
  end.

Lemma dsum_ext bl bl' b gs : (∀ i g, gs !! i = Some (Some g) → bl !! (b + i) = bl' !! (b + i)) → dsum bl b gs = dsum bl' b gs.
Proof.
  revert b. induction gs as [|[g|] gs IH]; intros b Hb; cbn [dsum]; [done| |].
  - rewrite (IH (S b)). 
    + specialize (Hb 0 g eq_refl). rewrite Nat.add_0_r in Hb. by rewrite Hb.
    + intros i g' Hi. specialize (Hb (S i) g' Hi). by replace (S b + i) with (b + S i) by lia.
  - apply IH. intros i g' Hi. specialize (Hb (S i) g' Hi). by replace (S b + i) with (b + S i) by lia.
Qed.
Lemma dsum_one bl bl' b gs b0 g0 c : b ≤ b0 → gs !! (b0 - b) = Some (Some g0) → 
  (∀ i g, gs !! i = Some (Some g) → b + i ≠ b0 → bl !! (b + i) = bl' !! (b + i)) →
  xle (dist (default 0 (bl !! b0)) g0) (xadd c (dist (default 0 (bl' !! b0)) g0)) →
  xle (dsum bl b gs) (xadd c (dsum bl' b gs)).
Proof.
  revert b. induction gs as [|x gs IH]; intros b Hle Hg Heq Hx; [done|].
  destruct (decide (b = b0)) as [->|Hne].
  - rewrite Nat.sub_diag in Hg. simpl in Hg. simplify_eq. cbn [dsum]. rewrite xadd_assoc. apply xadd_mono; [done|].
    rewrite (dsum_ext bl bl' (S b0) gs); [apply xle_refl|]. intros i g Hi. replace (S b0 + i) with (b0 + S i) by lia.
    by apply (Heq (S i) g); [|lia].
  - assert (Hrest : xle (dsum bl (S b) gs) (xadd c (dsum bl' (S b) gs))).
    { apply IH; [lia| | |done].
      - replace (b0 - b) with (S (b0 - S b)) in Hg by lia. done.
      - intros i g Hi Hn'. replace (S b + i) with (b + S i) in * by lia. by apply (Heq (S i) g). }
    destruct x as [g|]; cbn [dsum]; [|done].
    pose proof (Heq 0 g eq_refl) as H0. rewrite Nat.add_0_r in H0. rewrite H0 by done.
    rewrite (xadd_comm c), <-xadd_assoc. apply xadd_mono; [apply xle_refl|]. by rewrite (xadd_comm _ c).
Qed.
Lemma dsum_home bl b gs : (∀ i g, gs !! i = Some (Some g) → bl !! (b + i) = Some g ∧ g < n) → xle (dsum bl b gs) (Some 0%Z).
Proof.
  revert b. induction gs as [|[g|] gs IH]; intros b Hb; cbn [dsum]; [simpl; lia| |].
  - destruct (Hb 0 g eq_refl) as [H0 Hg]. rewrite Nat.add_0_r in H0. rewrite H0. simpl.
    change (Some 0%Z) with (xadd (Some 0%Z) (Some 0%Z)). apply xadd_mono; [by apply dist_self|]. apply IH.
    intros i g' Hi. replace (S b + i) with (b + S i) by lia. by apply (Hb (S i)).
  - apply IH. intros i g' Hi. replace (S b + i) with (b + S i) by lia. by apply (Hb (S i)).
Qed.

(** What is certainly left to be done: also the unloading of a box that is not needed. *)
Definition needless (s : state) : Z :=
  match rbox s with Some b => if decide (misplaced d s b) then 0 else 1 | None => 0 end%Z.
Definition unloads (s : state) : Z := (if decide (nleft s = 0) then 0 else nleft s - 1 + needless s)%Z.
Definition todo (s : state) : xcost :=
  xadd (dsum (boxlocs s) 0 (goal d)) (Some (unloads s * LoadCost d + hsum d 0 (locs s))%Z).

Lemma misplaced_astray s b i : good_state d s → located s b i → misplaced d s b ↔ astray d (i, b).
Proof.
  intros Hs Hl. unfold misplaced, astray. simpl. split; intros (g & Hg & Hne); exists g; (split; [done|]).
  - intros ->. done.
  - intros Hl'. apply Hne. by eapply (located_unique d s).
Qed.
Lemma nleft_nonneg s : good_state d s → (0 ≤ nleft s)%Z.
Proof. intros Hs. rewrite (gs_left d s Hs). lia. Qed.
Lemma needless_range s : (0 ≤ needless s ≤ 1)%Z.
Proof. unfold needless. destruct (rbox s); [case_decide|]; lia. Qed.

Lemma todo_goal s : good_state d s → isgoal s = true → xle (todo s) (Some 0%Z).
Proof.
  intros Hs Hg. unfold isgoal in Hg. apply bool_decide_eq_true in Hg. unfold todo.
  assert (Hno : ∀ b, b < nboxes d → ¬ misplaced d s b).
  { intros b Hb Hm. pose proof (gs_left d s Hs) as Hl. rewrite Hg in Hl.
    assert (Hin : b ∈ filter (misplaced d s) (seq 0 (nboxes d))) by (apply elem_of_list_filter; split; [done|apply elem_of_seq; lia]).
    destruct (filter (misplaced d s) (seq 0 (nboxes d))); [by apply elem_of_nil in Hin|simpl in Hl; lia]. }
  assert (Hun0 : unloads s = 0%Z) by (unfold unloads; by rewrite decide_True).
  assert (Hzero : ∀ i l b w, locs s !! i = Some l → b ∈ boxes_of l → hbox d i b w = 0%Z).
  { intros i l b w Hl Hb. unfold hbox. assert (Hloc : located s b i) by (left; eauto).
    rewrite decide_False; [done|]. rewrite <-(misplaced_astray s b i Hs Hloc). apply Hno. by eapply located_box. }
  assert (Hh : hsum d 0 (locs s) = 0%Z).
  { assert (Hz : ∀ i l, locs s !! i = Some l → hloc d i l = 0%Z).
    { intros i l Hl. unfold hloc. assert (zsum ((λ b, hbox d i b (LoadCost d)) <$> cranes l) = 0%Z) as ->.
      { assert (Hc : ∀ b, b ∈ cranes l → b ∈ boxes_of l) by (intros b Hb; apply elem_of_app; by left).
        induction (cranes l) as [|b bs IH]; [done|]. rewrite fmap_cons. unfold zsum. cbn [foldr]. rewrite (Hzero i l) by (done || apply Hc; left).
        apply IH. intros b' Hb'. apply Hc. by right. }
      assert (Hp : ∀ st b, st ∈ piles l → b ∈ st → b ∈ boxes_of l).
      { intros st b Hst Hb. apply elem_of_app. right. apply elem_of_list_In, in_concat. exists st. by split; apply elem_of_list_In. }
      induction (piles l) as [|st ps IH]; [done|]. rewrite fmap_cons. unfold zsum. cbn [foldr].
      assert (hstack d i st = 0%Z) as ->.
      { apply zsum_zero. intros x (k & b & -> & Hb)%elem_of_lookup_imap_1. apply (Hzero i l); [done|].
        eapply Hp; [left|]. by eapply elem_of_list_lookup_2. }
      apply IH. intros st' b Hst' Hb. eapply Hp; [by right|done]. }
    clear -Hz. assert (H : ∀ k ls, (∀ i l, ls !! i = Some l → hloc d (k + i) l = 0%Z) → hsum d k ls = 0%Z).
    { intros k ls. revert k. induction ls as [|l ls IH]; intros k Hk; [done|]. cbn [hsum].
      rewrite <-(Nat.add_0_r k) at 1. rewrite (Hk 0 l eq_refl), IH; [done|]. intros i l' Hi.
      replace (S k + i) with (k + S i) by lia. by apply (Hk (S i)). }
    by apply H. }
  rewrite Hun0, Hh. replace (0 * LoadCost d + 0)%Z with 0%Z by lia. rewrite xadd_comm, xadd_0.
  apply dsum_home. intros b g Hbg. rewrite Nat.add_0_l.
  assert (Hb : b < nboxes d) by (rewrite <-(gd_goals d Hd); by eapply lookup_lt_Some).
  split; [|by eapply gd_goal]. destruct (box_located d s Hd Hs b Hb) as (l & Hl & _). rewrite (gs_bl d s Hs b g l Hbg Hl).
  destruct (decide (l = g)) as [->|Hne]; [done|]. exfalso. apply (Hno b Hb). exists g. split; [done|].
  intros Hl'. apply Hne. by eapply (located_unique d s).
Qed.

Lemma todo_step s o a c : good_state d s → enabled d s o → undone d s o a → a_cost a = Some c →
  xle (todo s) (xadd (Some c) (todo (a_state a))).
Proof.
  intros Hs Hen (Hap & Hg & Heff & Hloc & _) Hc. set (s' := a_state a) in *.
  pose proof (nleft_nonneg s Hs) as Hn0. pose proof (nleft_nonneg s' Hg) as Hn0'.
  assert (HL : (0 ≤ LoadCost d)%Z) by done. assert (HP : (0 ≤ PopCostFact d)%Z) by (unfold PopCostFact; lia).
  (* operators that only change the robot's location *)
  assert (Hstay : (∀ l, o ≠ Move l) → ∀ l l', replaced s s' l l' →
    (unloads s * LoadCost d + hloc d (rloc s) l ≤ c + unloads s' * LoadCost d + hloc d (rloc s) l')%Z →
    xle (todo s) (xadd (Some c) (todo s'))).
  { intros Ho l l' [Hl Hl'] Hle. unfold todo. rewrite Hl'. rewrite (hsum_insert d 0 _ _ l l' Hl). rewrite Nat.add_0_l.
    assert (dsum (boxlocs s) 0 (goal d) = dsum (boxlocs s') 0 (goal d)) as ->.
    { apply dsum_ext. intros b g Hbg. rewrite Nat.add_0_l.
      assert (Hb : b < nboxes d) by (rewrite <-(gd_goals d Hd); by eapply lookup_lt_Some).
      destruct (box_located d s Hd Hs b Hb) as (i & Hi & _). rewrite (gs_bl d s Hs b g i Hbg Hi).
      symmetry. eapply gs_bl; [done|done|]. by apply Hloc. }
    rewrite xadd_assoc, (xadd_comm (Some c)), <-xadd_assoc. apply xadd_mono; [apply xle_refl|]. simpl. lia. }
  assert (Hmis : (∀ l, o ≠ Move l) → nleft s' = nleft s ∧ ∀ b, misplaced d s' b ↔ misplaced d s b).
  { intros Ho. assert (Hm : ∀ b, misplaced d s' b ↔ misplaced d s b).
    { intros b. unfold misplaced. setoid_rewrite (Hloc b _ Ho). done. }
    split; [|done]. rewrite (gs_left d s Hs). etrans; [apply (gs_left d s' Hg)|]. do 2 f_equal. apply list_filter_iff. done. }
  assert (Hcr : ∀ (l l' : list nat) i b, l ≡ₚ b :: l' →
    zsum ((λ b, hbox d i b (LoadCost d)) <$> l) = (hbox d i b (LoadCost d) + zsum ((λ b, hbox d i b (LoadCost d)) <$> l'))%Z).
  { intros l l' i b Hp. rewrite (zsum_perm _ ((λ b, hbox d i b (LoadCost d)) <$> (b :: l'))); [done|]. by rewrite Hp. }
  assert (Hpl : ∀ (l l' : list pile) i, l ≡ₚ l' → zsum (hstack d i <$> l) = zsum (hstack d i <$> l')).
  { intros l l' i Hp. apply zsum_perm. by rewrite Hp. }
  destruct o as [|i p|p|i| |j]; [done|..].
  - (* push *)
    destruct Heff as (Hrl & Hrb & l & l' & box & Hrep & Hi & Hcra & Hp).
    destruct (Hmis ltac:(done)) as [Hnl Hm].
    apply (Hstay ltac:(done) l l' Hrep).
    assert (unloads s' = unloads s) as ->.
    { unfold unloads. rewrite Hnl. assert (needless s' = needless s) as ->; [|done]. unfold needless. rewrite Hrb.
      destruct (rbox s) as [b|]; [|done]. specialize (Hm b). repeat case_decide; tauto. }
    unfold hloc. rewrite (Hcr _ _ (rloc s) box Hcra).
    destruct (p ≫= λ p, piles l !! p) as [st|] eqn:Est.
    + destruct Hp as [(rest & Hpr & Hpr') Hcost]. rewrite (Hpl _ _ (rloc s) Hpr), (Hpl _ _ (rloc s) Hpr').
      rewrite !fmap_cons. rewrite ?zsum_cons. rewrite hstack_snoc. rewrite Hcost in Hc. simplify_eq.
      unfold hbox. case_decide; nia.
    + destruct Hp as [Hpr Hcost]. rewrite (Hpl _ _ (rloc s) Hpr), fmap_cons. rewrite ?zsum_cons.
      replace (hstack d (rloc s) [box]) with (hstack d (rloc s) ([] ++ [box])) by done. rewrite hstack_snoc.
      rewrite Hcost in Hc. simplify_eq. unfold hbox. cbn [length]. change (hstack d (rloc s) []) with 0%Z. case_decide; nia.
  - (* pop *)
    destruct Heff as (Hrl & Hrb & l & l' & st & box & Hrep & Hst & Hcra & (rest & Hpr & Hpr') & Hcost).
    destruct (Hmis ltac:(done)) as [Hnl Hm].
    apply (Hstay ltac:(done) l l' Hrep).
    assert (unloads s' = unloads s) as ->.
    { unfold unloads. rewrite Hnl. assert (needless s' = needless s) as ->; [|done]. unfold needless. rewrite Hrb.
      destruct (rbox s) as [b|]; [|done]. specialize (Hm b). repeat case_decide; tauto. }
    unfold hloc. rewrite (Hcr _ _ (rloc s) box Hcra). rewrite (Hpl _ _ (rloc s) Hpr), (Hpl _ _ (rloc s) Hpr'), fmap_cons.
    rewrite ?zsum_cons. rewrite hstack_snoc. rewrite Hcost in Hc. simplify_eq.
    assert (zsum (hstack d (rloc s) <$> match st with [] => rest | _ => st :: rest end) = hstack d (rloc s) st + zsum (hstack d (rloc s) <$> rest))%Z as ->.
    { destruct st; [by rewrite Z.add_0_l|]. done. }
    unfold hbox. case_decide; nia.
  - (* load *)
    destruct Heff as (Hrl & Hrb & l & l' & box & Hrep & Hi & Hcra & Hpp & Hrb' & Hcost).
    destruct (Hmis ltac:(done)) as [Hnl Hm].
    apply (Hstay ltac:(done) l l' Hrep).
    rewrite Hcost in Hc. simplify_eq. unfold hloc. rewrite (Hcr _ _ (rloc s) box Hcra), Hpp.
    pose proof (needless_range s').
    assert (Hunl : (unloads s ≤ unloads s')%Z).
    { unfold unloads. rewrite Hnl. case_decide; [lia|]. assert (needless s = 0%Z) as -> by (unfold needless; by rewrite Hrb). lia. }
    unfold hbox at 1. case_decide; nia.
  - (* unload *)
    destruct Heff as (Hrl & Hrb' & l & l' & box & Hrep & Hrb & Hcra & Hpp & Hcost).
    destruct (Hmis ltac:(done)) as [Hnl Hm].
    apply (Hstay ltac:(done) l l' Hrep).
    rewrite Hcost in Hc. simplify_eq. unfold hloc. rewrite (Hcr _ _ (rloc s) box Hcra), Hpp.
    assert (Hunl : (unloads s ≤ 1 + unloads s')%Z).
    { unfold unloads. rewrite Hnl. case_decide; [lia|]. pose proof (needless_range s). pose proof (needless_range s'). lia. }
    unfold hbox at 2. case_decide; nia.
  - (* move *)
    destruct Heff as (Hrl & Hrb & Hll & Hadj).
    destruct Hen as (_ & _ & _ & _ & _ & _ & Hj & Hjne).
    assert (Hdir : direct d (rloc s) j = Some c) by (unfold direct; rewrite Hadj; congruence).
    assert (Hc0 : (0 ≤ c)%Z) by by eapply Hn.
    pose proof (gs_rloc d s Hs) as Hrloc.
    unfold todo. rewrite Hll. rewrite xadd_assoc. 
    assert (Hlocm : ∀ b i, rbox s ≠ Some b → located s' b i ↔ located s b i).
    { intros b i Hb. unfold located. rewrite Hll, Hrb. naive_solver. }
    assert (Hrest : ∀ b g, goal d !! b = Some (Some g) → rbox s ≠ Some b → boxlocs s !! b = boxlocs s' !! b).
    { intros b g Hbg Hb. assert (Hlt : b < nboxes d) by (rewrite <-(gd_goals d Hd); by eapply lookup_lt_Some).
      destruct (box_located d s Hd Hs b Hlt) as (i & Hi & _). rewrite (gs_bl d s Hs b g i Hbg Hi).
      symmetry. eapply gs_bl; [done|done|]. by apply Hlocm. }
    assert (Hnone : xle (Some 0%Z) (Some c)) by done.
    unfold apply in Hap.
    destruct (rbox s) as [b|] eqn:Erb.
    2: { cbn [mbind option_bind] in Hap. destruct (adj d !! rloc s ≫= _) as [x|]; [|done]. cbn [mbind option_bind] in Hap.
         destruct (adj d !! j ≫= _) as [y|]; [|done]. cbn [mbind option_bind] in Hap.
         assert (Hnl : nleft s' = nleft s) by (unfold s'; by rewrite <-(inj Some _ _ Hap)).
         apply xadd_mono.
         - rewrite (dsum_ext (boxlocs s) (boxlocs s')); [|intros; eapply Hrest; [done|congruence]]. rewrite <-(xadd_0 (dsum _ _ _)) at 1.
           by apply xadd_mono; [|apply xle_refl].
         - simpl. unfold unloads, needless. rewrite Hnl, Erb, Hrb. case_decide; lia. }
    destruct (goal d !! b) as [g|] eqn:Eg; [|done]. cbn [mbind option_bind] in Hap. destruct g as [g|].
    2: { cbn [mbind option_bind] in Hap. destruct (adj d !! rloc s ≫= _) as [x|]; [|done]. cbn [mbind option_bind] in Hap.
         destruct (adj d !! j ≫= _) as [y|]; [|done]. cbn [mbind option_bind] in Hap.
         assert (Hnl : nleft s' = nleft s) by (unfold s'; by rewrite <-(inj Some _ _ Hap)).
         apply xadd_mono.
         - rewrite (dsum_ext (boxlocs s) (boxlocs s')); [|intros b' g' Hb'; rewrite Nat.add_0_l; apply (Hrest b' g'); [done|congruence]].
           rewrite <-(xadd_0 (dsum _ _ _)) at 1. by apply xadd_mono; [|apply xle_refl].
         - simpl. unfold unloads, needless. rewrite Hnl, Erb, Hrb.
           assert (Hm : ¬ misplaced d s b ∧ ¬ misplaced d s' b) by (unfold misplaced; split; naive_solver).
           rewrite (decide_False (P := misplaced d s b)), (decide_False (P := misplaced d s' b)) by tauto. case_decide; lia. }
    destruct (bool_decide (b < length (boxlocs s))); [|done]. cbn [mbind option_bind] in Hap.
    destruct (adj d !! rloc s ≫= _) as [x|]; [|done]. cbn [mbind option_bind] in Hap.
    destruct (adj d !! j ≫= _) as [y|]; [|done]. cbn [mbind option_bind] in Hap.
    assert (Hnl : nleft s' = (if bool_decide (g = rloc s) then nleft s + 1 else if bool_decide (g = j) then nleft s - 1 else nleft s)%Z)
      by (unfold s'; by rewrite <-(inj Some _ _ Hap)).
    assert (Hlb : located s b (rloc s)) by (right; done).
    assert (Hlb' : located s' b j) by (right; split; congruence).
    assert (Hgn : g < n) by by eapply gd_goal.
    apply xadd_mono.
    + eapply (dsum_one _ _ 0 (goal d) b g); [lia|by rewrite Nat.sub_0_r| |].
      * intros i g' Hi Hne. rewrite Nat.add_0_l in *. eapply Hrest; [done|congruence].
      * rewrite (gs_bl d s Hs b g _ Eg Hlb), (gs_bl d s' Hg b g _ Eg Hlb'). simpl. by apply dist_triangle.
    + simpl. assert (Hm1 : misplaced d s b ↔ g ≠ rloc s).
      { rewrite (misplaced_astray s b (rloc s) Hs Hlb). unfold astray. simpl. rewrite Eg. naive_solver. }
      assert (Hm2 : misplaced d s' b ↔ g ≠ j).
      { rewrite (misplaced_astray s' b j Hg Hlb'). unfold astray. simpl. rewrite Eg. naive_solver. }
      assert (Hle : (unloads s ≤ unloads s')%Z); [|nia].
      unfold unloads, needless. rewrite Hnl, Erb, Hrb. revert Hn0'. rewrite Hnl. intros Hn0'.
      destruct (decide (misplaced d s b)) as [H1|H1], (decide (misplaced d s' b)) as [H2|H2]; rewrite ?Hm1, ?Hm2 in *;
        repeat case_bool_decide; repeat case_decide; try lia; try tauto; exfalso; tauto || (apply H1; congruence) || idtac.
Qed.

(** The computation of the heuristic. *)
Lemma hdboxes_spec s b gs acc : (∀ i g, gs !! i = Some (Some g) → g < n ∧ ∃ l, boxlocs s !! (b + i) = Some l ∧ l < n) →
  ∃ y, hdboxes d t s b gs acc = Some (xadd acc.1 (dsum (boxlocs s) b gs), y).
Proof.
  revert b acc. induction gs as [|[g|] gs IH]; intros b acc Hr; cbn [hdboxes dsum].
  - exists acc.2. destruct acc as [a1 a2]. simpl. f_equal. f_equal. by rewrite xadd_comm, xadd_0.
  - destruct (Hr 0 g eq_refl) as (Hg & l & Hl & Hln). rewrite Nat.add_0_r in Hl. rewrite Hl. cbn [mbind option_bind default].
    destruct (dist_cheapest l g Hln Hg) as (e & He & Hed & _). rewrite He. cbn [mbind option_bind].
    destruct (IH (S b) (xadd acc.1 e.1, xadd acc.2 e.2)) as (y & Hy).
    { intros i g' Hi. replace (S b + i) with (b + S i) by lia. by apply Hr. }
    exists y. rewrite Hy. cbn [fst]. rewrite Hed. unfold id. by rewrite xadd_assoc.
  - apply IH. intros i g' Hi. replace (S b + i) with (b + S i) by lia. by apply Hr.
Qed.
Lemma hdbox_spec l b ch cd : b < nboxes d → ∃ y, hdbox d l b ch cd = Some (hbox d l b ch, y).
Proof.
  intros Hb. unfold hdbox. destruct (lookup_lt_is_Some_2 (goal d) b) as [g Hg]; [by rewrite (gd_goals d Hd)|].
  rewrite Hg. cbn [mbind option_bind]. unfold hbox. destruct g as [g|].
  - case_bool_decide.
    + rewrite decide_False; [by eexists|]. unfold astray. simpl. naive_solver.
    + rewrite decide_True; [by eexists|]. unfold astray. simpl. eauto.
  - rewrite decide_False; [by eexists|]. unfold astray. simpl. naive_solver.
Qed.
Lemma mapM_sum {A} (f : A → option (Z * Z)) (w : A → Z) l : (∀ x, x ∈ l → ∃ y, f x = Some (w x, y)) →
  ∃ l', mapM f l = Some l' ∧ (zsum2 l').1 = zsum (w <$> l).
Proof.
  induction l as [|x l IH]; intros H; [by exists []|]. destruct (H x) as [y Hy]; [left|].
  destruct IH as (l' & Hl' & Hs); [intros; apply H; by right|]. exists ((w x, y) :: l').
  simpl. rewrite Hy. simpl. rewrite Hl'. simpl. split; [done|]. unfold zsum2 in *. simpl. rewrite Hs. done.
Qed.
Lemma hdlocs_spec l ls : (∀ b, b ∈ concat (boxes_of <$> ls) → b < nboxes d) → ∃ y, hdlocs d l ls = Some (hsum d l ls, y).
Proof.
  revert l. induction ls as [|x ls IH]; intros l Hb; [by eexists|]. cbn [hdlocs hsum].
  rewrite fmap_cons in Hb. simpl in Hb.
  destruct (mapM_sum (λ box, hdbox d l box (LoadCost d) 1) (λ b, hbox d l b (LoadCost d)) (cranes x)) as (cs & -> & Hcs).
  { intros b Hin. apply hdbox_spec. apply Hb. apply elem_of_app. left. apply elem_of_app. by left. }
  cbn [mbind option_bind].
  assert (Hps : ∃ ps, mapM (λ st, zsum2 <$> mapM (λ ib : nat * nat, hdbox d l ib.2 (PopCostFact d * (Z.of_nat ib.1 + 2) + LoadCost d) 2)
                       (imap pair st)) (piles x) = Some ps ∧ (zsum2 ps).1 = zsum (hstack d l <$> piles x)).
  { apply mapM_sum. intros st Hst.
    destruct (mapM_sum (λ ib : nat * nat, hdbox d l ib.2 (PopCostFact d * (Z.of_nat ib.1 + 2) + LoadCost d) 2)
      (λ ib : nat * nat, hbox d l ib.2 (PopCostFact d * (Z.of_nat ib.1 + 2) + LoadCost d)%Z) (imap pair st)) as (r & Hr & Hsum).
    { intros ib (k & b & -> & Hkb)%elem_of_lookup_imap_1. apply hdbox_spec. apply Hb. apply elem_of_app. left. apply elem_of_app. right.
      apply elem_of_list_In, in_concat. exists st. split; apply elem_of_list_In; [done|]. by eapply elem_of_list_lookup_2. }
    rewrite Hr. exists (zsum2 r).2. simpl. f_equal. rewrite (surjective_pairing (zsum2 r)). f_equal. rewrite Hsum.
    unfold hstack. f_equal. rewrite fmap_imap. done. }
  destruct Hps as (ps & -> & Hps). cbn [mbind option_bind].
  destruct (IH (S l)) as (y & ->). { intros b Hin. apply Hb. apply elem_of_app. by right. }
  cbn [mbind option_bind]. eexists. rewrite Hcs, Hps. simpl. unfold hloc. done.
Qed.

Lemma hd_spec s : good_state d s → ∃ h y, hd d t s = Some (h, y) ∧
  (nleft s = 0%Z → h = Some 0%Z) ∧ (nleft s ≠ 0%Z → xle h (todo s)) ∧
  (nleft s ≠ 0%Z → h = xadd (dsum (boxlocs s) 0 (goal d)) (Some ((nleft s - 1) * LoadCost d + hsum d 0 (locs s))%Z)).
Proof.
  intros Hs. unfold hd. case_bool_decide as H0; [by eexists _, _|].
  destruct (hdboxes_spec s 0 (goal d) (Some 0%Z, Some 0%Z)) as (y & ->).
  { intros b g Hbg. rewrite Nat.add_0_l. split; [by eapply gd_goal|].
    assert (Hlt : b < nboxes d) by (rewrite <-(gd_goals d Hd); by eapply lookup_lt_Some).
    destruct (box_located d s Hd Hs b Hlt) as (i & Hi & Hin). exists i. split; [by eapply gs_bl|done]. }
  cbn [mbind option_bind]. destruct (hdlocs_spec 0 (locs s)) as (y' & ->).
  { intros b Hb. apply (box_range d s Hd Hs). unfold all_boxes. apply elem_of_app. by left. }
  cbn [mbind option_bind fst snd]. eexists _, _. split; [done|]. split; [done|]. rewrite xadd_0. split; [|done]. intros _. unfold todo.
  apply xadd_mono; [apply xle_refl|]. simpl. unfold unloads. rewrite decide_False by done.
  pose proof (needless_range s). assert (0 ≤ LoadCost d)%Z by done. nia.
Qed.

Lemma plan_todo s os t' c : good_state d s → plan d s os t' c → good_state d t' ∧ (0 ≤ c)%Z ∧
  (isgoal t' = true → xle (todo s) (Some c)).
Proof.
  intros Hs Hp. induction Hp as [s|s os o e c rest t' c' Hos Ho He Hc Hp IH].
  { split_and!; [done|done|]. by apply todo_goal. }
  destruct (C60_operators_exact d s Hd Hs) as (os' & Hos' & Hiff). assert (os' = os) as -> by congruence.
  apply Hiff in Ho. destruct (enabled_undone d s o Hd Hs Ho) as (a & Hund).
  unfold mkedge in He. rewrite (proj1 Hund) in He. cbn [mbind option_bind] in He. apply (inj Some) in He. subst e.
  cbn [fst a_cost a_state] in *. set (a' := a_state a) in *.
  assert (Hg : good_state d (State (locs a') (boxlocs a') (rbox a') (rloc a') None None (nleft a'))).
  { apply edge_state_good. apply Hund. }
  destruct (IH Hg) as (Hgt & Hc0 & Hle).
  pose proof (todo_step s o a c Hs Ho Hund Hc) as Hst. fold a' in Hst.
  assert (Hcc : (0 ≤ c)%Z).
  { destruct Hund as (_ & _ & Heff & _). destruct o as [|i p|p|i| |j]; [done|..].
    - destruct Heff as (_ & _ & l & l' & box & _ & _ & _ & Hcost). destruct (p ≫= _).
      + destruct Hcost as [_ Hcost]. rewrite Hc in Hcost. apply (inj Some) in Hcost as ->. unfold PopCostFact. nia.
      + destruct Hcost as [_ Hcost]. rewrite Hc in Hcost. apply (inj Some) in Hcost as ->. unfold PopCostFact. lia.
    - destruct Heff as (_ & _ & l & l' & st & box & _ & _ & _ & _ & Hcost). rewrite Hc in Hcost. apply (inj Some) in Hcost as ->. unfold PopCostFact. nia.
    - destruct Heff as (_ & _ & l & l' & box & _ & _ & _ & _ & _ & Hcost). rewrite Hc in Hcost. apply (inj Some) in Hcost as ->. done.
    - destruct Heff as (_ & _ & l & l' & box & _ & _ & _ & _ & Hcost). rewrite Hc in Hcost. apply (inj Some) in Hcost as ->. done.
    - destruct Heff as (_ & _ & _ & Hadj). eapply (Hn (rloc s) j). unfold direct. by rewrite Hadj. }
  split_and!; [done|lia|]. intros Hgoal. eapply xle_trans; [exact Hst|].
  change (Some (c + c')%Z) with (xadd (Some c) (Some c')). apply xadd_mono; [apply xle_refl|]. by apply Hle.
Qed.
End heuristic.

(** The heuristic is defined in every good state, and never exceeds the cost of a plan that
    brings all boxes to their goals; in particular it is infinite only where there is none. *)
Theorem C77_heuristic_admissible d t s : good_drobot d → nonneg_costs d → (0 ≤ un d)%Z →
  initheuristic d = Some t → good_state d s →
  ∃ h y, hd d t s = Some (h, y) ∧
    ∀ os t' c, plan d s os t' c → (∀ b g, goal d !! b = Some (Some g) → located t' b g) → xle h (Some c).
Proof.
  intros Hd Hn Hun Ht Hs. destruct (hd_spec d Hd Hn Hun t Ht s Hs) as (h & y & Hh & H0 & H1 & _).
  exists h, y. split; [done|]. intros os t' c Hp Hhome.
  destruct (plan_todo d Hd Hn Hun t Ht s os t' c Hs Hp) as (Hg & Hc & Hle).
  assert (Hgoal : isgoal t' = true).
  { unfold isgoal. apply bool_decide_eq_true. etrans; [apply (gs_left d t' Hg)|].
    assert (filter (misplaced d t') (seq 0 (nboxes d)) = []) as ->; [|done].
    apply elem_of_nil_inv. intros b [(g & Hbg & Hno) _]%elem_of_list_filter. by apply Hno, Hhome. }
  destruct (decide (nleft s = 0%Z)) as [Hz|Hz].
  - rewrite (H0 Hz). done.
  - eapply xle_trans; [by apply H1|]. by apply Hle.
Qed.

(** The count of misplaced boxes decides the goal. *)
Theorem C77_goal_test d s : good_drobot d → good_state d s →
  isgoal s = true ↔ ∀ b g, goal d !! b = Some (Some g) → located s b g.
Proof.
  intros Hd Hs. unfold isgoal. rewrite bool_decide_eq_true. rewrite (gs_left d s Hs). split.
  - intros Hz b g Hbg. destruct (decide (located s b g)) as [|Hno]; [done|]. exfalso.
    assert (Hb : b < nboxes d) by (rewrite <-(gd_goals d Hd); by eapply lookup_lt_Some).
    assert (Hin : b ∈ filter (misplaced d s) (seq 0 (nboxes d))).
    { apply elem_of_list_filter. split; [by exists g|apply elem_of_seq; lia]. }
    destruct (filter (misplaced d s) (seq 0 (nboxes d))); [by apply elem_of_nil in Hin|simpl in Hz; lia].
  - intros Hhome. assert (filter (misplaced d s) (seq 0 (nboxes d)) = []) as ->; [|done].
    apply elem_of_nil_inv. intros b [(g & Hbg & Hno) _]%elem_of_list_filter. by apply Hno, Hhome.
Qed.

(** *** Example *)
(** Box 2 lies on box 0 and there is one crane, so box 2 is put on another pile first; then box 0 is
    popped, loaded and driven to location 1. *)
Definition ex_p : drobot := Drobot 1 2 3 [3; 2] [1; 1] [[None; Some 300]; [Some 300; None]]%Z [Some 1; None; None].
Fixpoint runplan (d : drobot) (s : state) (os : list oper) : option (state * Z) :=
  match os with
  | [] => Some (s, 0%Z)
  | o :: os => l ← operators d s; if bool_decide (o ∈ l) then e ← mkedge d s o; c ← a_cost e.1;
      '(t, c') ← runplan d (a_state e.1) os; Some (t, (c + c')%Z) else None
  end.
Lemma runplan_plan d s os t c : runplan d s os = Some (t, c) → plan d s os t c.
Proof.
  revert s c. induction os as [|o os IH]; intros s c; cbn [runplan]; [intros [= -> <-]; constructor|].
  destruct (operators d s) as [l|] eqn:Hl; [|done]. cbn [mbind option_bind]. case_bool_decide as Ho; [|done].
  destruct (mkedge d s o) as [e|] eqn:He; [|done]. cbn [mbind option_bind].
  destruct (a_cost e.1) as [k|] eqn:Hk; [|done]. cbn [mbind option_bind].
  destruct (runplan d (a_state e.1) os) as [[t' c']|] eqn:Hr; [|done]. cbn [mbind option_bind].
  intros [= -> <-]. by eapply plan_step; [..|apply IH].
Qed.
Lemma ex_p_good : good_drobot ex_p ∧ nonneg_costs ex_p.
Proof.
  split; [split; try done|].
  - intros i r Hr. do 2 (destruct i as [|i]; [by simplify_eq/=|]). done.
  - intros b g Hg. destruct b as [|b]; simplify_eq/=; [lia|]. by do 3 (destruct b as [|b]; simplify_eq/=).
  - intros i j c. unfold direct. do 2 (destruct i as [|i]; [do 2 (destruct j as [|j]; [simpl; intros; simplify_eq; lia|]); done|]). done.
Qed.
Example ex_plan : ∃ s t s' , mkstate ex_p ex_l None 0 = Some s ∧ good_state ex_p s ∧ initheuristic ex_p = Some t ∧
  hd ex_p t s = Some (Some 311, Some 3)%Z ∧ plan ex_p s [Pop 0; Push 0 (Some 1); Pop 0; Load 0; Move 1] s' 336 ∧ isgoal s' = true.
Proof.
  destruct (C60_new_state_good ex_p ex_l None 0) as (s & Hs & Hg & _).
  { apply ex_p_good. }
  { destruct ex_fits. split; try done.
    intros i l m Hl Hm. do 2 (destruct i as [|i]; [simplify_eq/=; lia|]). done. }
  { intros i l Hl. do 2 (destruct i as [|i]; [simplify_eq/=; split; repeat constructor|]). done. }
  vm_compute in Hs. simplify_eq. eexists _, _, _. split; [vm_compute; reflexivity|]. split; [done|].
  split; [vm_compute; reflexivity|]. split; [vm_compute; reflexivity|].
  split; [apply runplan_plan; vm_compute; reflexivity|]. by vm_compute.
Qed.

Print Assumptions C63_shortest_paths.
Print Assumptions C63_steps_refuted.
Print Assumptions C77_heuristic_admissible.
Print Assumptions C77_goal_test.
