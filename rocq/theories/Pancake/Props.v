(** The pancake puzzle: C51, C52. *)
From stdpp Require Import prelude.
From Coq Require Import ZArith Lia ZifyBool ZifyNat.
From Verif Require Import Pancake.Model.
Local Open Scope nat_scope.

(** ** Specification *)

(** The stack of [n] cakes with the smallest on top. *)
Definition sorted_stack (n : nat) : list Z := Z.of_nat <$> seq 0 n.

(** Turning over the top [S op] cakes. *)
Definition turned (op : nat) (l : list Z) : list Z := reverse (take (S op) l) ++ drop (S op) l.

(** The number of places where a cake does not lie on a neighbour in size; the plate counts as the
    next size. *)
Fixpoint breaks (l : list Z) : Z :=
  match l with
  | x :: ((y :: _) as l) => (if decide (Z.abs (x - y) = 1) then 0 else 1) + breaks l
  | _ => 0
  end%Z.

(** ** flip *)

Lemma swap_lookup op l n : n ≤ op → op < length l →
  ∃ l', swap op l n = Some l' ∧ length l' = length l ∧
    ∀ i, l' !! i = if decide (i = n) then l !! (op - n) else if decide (i = op - n) then l !! n else l !! i.
Proof.
  intros Hn Hl. unfold swap. destruct (lookup_lt_is_Some_2 l n) as [a Ha]; [lia|].
  destruct (lookup_lt_is_Some_2 l (op - n)) as [c Hc]; [lia|]. rewrite Ha. simpl. rewrite Hc. simpl.
  eexists. split; [done|]. split; [by rewrite !insert_length|]. intros i.
  destruct (decide (i = op - n)) as [->|Hi].
  - rewrite list_lookup_insert by (rewrite insert_length; lia). case_decide as He; [|done].
    rewrite <-Hc, He, Ha. done.
  - rewrite list_lookup_insert_ne by done. case_decide as He.
    + subst i. rewrite list_lookup_insert by lia. done.
    + by rewrite list_lookup_insert_ne.
Qed.

Lemma swaps_app op l ns ns' : swaps op l (ns ++ ns') = l ← swaps op l ns; swaps op l ns'.
Proof. revert l. induction ns as [|n ns IH]; intros l; [done|]. simpl. destruct (swap op l n); [|done]. apply IH. Qed.

Lemma swaps_lookup op l k : k ≤ op / 2 + 1 → op < length l →
  ∃ l', swaps op l (seq 0 k) = Some l' ∧ length l' = length l ∧
    ∀ i, l' !! i = if decide (i ≤ op ∧ (i < k ∨ op - i < k)) then l !! (op - i) else l !! i.
Proof.
  intros Hk Hl. induction k as [|k IH].
  - exists l. split; [done|]. split; [done|]. intros i. rewrite decide_False by lia. done.
  - destruct IH as (l1 & Hs & Hlen & Hi1); [lia|].
    destruct (swap_lookup op l1 k) as (l2 & Hs2 & Hlen2 & Hi2); [lia|lia|].
    exists l2. rewrite seq_S, swaps_app, Hs. simpl. rewrite Hs2. split; [done|]. split; [lia|].
    intros i. rewrite Hi2. assert (Hk2 : k ≤ op - k) by lia.
    destruct (decide (i = k)) as [->|Hik].
    + rewrite Hi1. rewrite (decide_False (P := op - k ≤ op ∧ _)) by lia. by rewrite decide_True by lia.
    + destruct (decide (i = op - k)) as [->|Hio].
      * rewrite Hi1. rewrite decide_False by lia. rewrite decide_True by lia. f_equal. lia.
      * rewrite Hi1. destruct (decide (i ≤ op ∧ (i < k ∨ op - i < k))).
        -- by rewrite decide_True by lia.
        -- by rewrite decide_False by lia.
Qed.

Lemma turned_lookup op l i : op < length l →
  turned op l !! i = if decide (i ≤ op) then l !! (op - i) else l !! i.
Proof.
  intros Hl. unfold turned. case_decide as Hi.
  - rewrite lookup_app_l by (rewrite reverse_length, take_length; lia).
    rewrite reverse_lookup by (rewrite take_length; lia). rewrite take_length.
    rewrite lookup_take by lia. f_equal. lia.
  - rewrite lookup_app_r by (rewrite reverse_length, take_length; lia).
    rewrite reverse_length, take_length, lookup_drop. f_equal. lia.
Qed.
Lemma turned_length op l : length (turned op l) = length l.
Proof. unfold turned. rewrite app_length, reverse_length, take_length, drop_length. lia. Qed.
Lemma turned_perm op l : turned op l ≡ₚ l.
Proof. unfold turned. by rewrite reverse_Permutation, take_drop. Qed.
Lemma turned_twice op l : op < length l → turned op (turned op l) = l.
Proof.
  intros Hl. apply list_eq. intros i. rewrite !turned_lookup by (rewrite ?turned_length; lia).
  repeat case_decide; try lia; [|done]. f_equal. lia.
Qed.

Lemma flip_turned N l op : length l = N → 0 < op < N → flip N l (Z.of_nat op) = Some (turned op l).
Proof.
  intros Hl Hop. unfold flip. rewrite decide_True by lia. rewrite Nat2Z.id.
  destruct (swaps_lookup op l (op / 2 + 1)) as (l' & -> & Hlen & Hi); [lia|lia|].
  f_equal. apply list_eq. intros i. rewrite Hi, turned_lookup by lia.
  destruct (decide (i ≤ op)); [by rewrite decide_True by lia|by rewrite decide_False by lia].
Qed.

(** ** Counting gaps *)

Definition gapb (N : nat) (l : list Z) (n : nat) : bool := default false (gap N l n).
Definition nval (b : bool) : Z := if b then 1%Z else 0%Z.
Definition sumgaps (f : nat → bool) (ns : list nat) : Z := foldr (λ n a, nval (f n) + a)%Z 0%Z ns.

Lemma gap_Some N l n : length l = N → n < N → gap N l n = Some (gapb N l n).
Proof.
  intros Hl Hn. unfold gapb, gap. rewrite decide_True by lia. case_decide.
  - destruct (lookup_lt_is_Some_2 l (N - 1)) as [x ->]; [lia|]. done.
  - destruct (lookup_lt_is_Some_2 l n) as [x ->]; [lia|].
    destruct (lookup_lt_is_Some_2 l (n + 1)) as [y ->]; [lia|]. done.
Qed.

Lemma count_gaps_sum N l ns c : length l = N → Forall (λ n, n < N) ns →
  count_gaps N l ns c = Some (c + sumgaps (gapb N l) ns)%Z.
Proof.
  intros Hl. revert c. induction ns as [|n ns IH]; intros c Hns; simpl; [f_equal; lia|].
  apply Forall_cons in Hns as [Hn Hns]. rewrite gap_Some by done. simpl. rewrite IH by done. f_equal.
  unfold nval. destruct (gapb N l n); lia.
Qed.

Lemma ngaps_sum N l : length l = N → ngaps N l = Some (sumgaps (gapb N l) (seq 0 N)).
Proof.
  intros Hl. unfold ngaps. rewrite count_gaps_sum; [done|done|].
  apply Forall_forall. intros n Hn. apply elem_of_seq in Hn. lia.
Qed.

Lemma sumgaps_app f ns ns' : sumgaps f (ns ++ ns') = (sumgaps f ns + sumgaps f ns')%Z.
Proof. unfold sumgaps. induction ns as [|n ns IH]; simpl; [done|]. rewrite IH. lia. Qed.
Lemma sumgaps_perm f ns ns' : ns ≡ₚ ns' → sumgaps f ns = sumgaps f ns'.
Proof. induction 1; simpl in *; lia. Qed.
Lemma sumgaps_ext f g ns : (∀ n, n ∈ ns → f n = g n) → sumgaps f ns = sumgaps g ns.
Proof.
  intros Hfg. induction ns as [|n ns IH]; [done|]. simpl. rewrite IH by set_solver.
  by rewrite Hfg by set_solver.
Qed.
Lemma sumgaps_map f (g : nat → nat) ns : sumgaps f (g <$> ns) = sumgaps (f ∘ g) ns.
Proof.
  induction ns as [|n ns IH]; [done|].
  change (nval (f (g n)) + sumgaps f (g <$> ns) = nval (f (g n)) + sumgaps (f ∘ g) ns)%Z. by rewrite IH.
Qed.

Lemma rev_seq k : (λ i, k - 1 - i) <$> seq 0 k = reverse (seq 0 k).
Proof.
  apply list_eq. intros i. rewrite list_lookup_fmap. destruct (decide (i < k)).
  - rewrite reverse_lookup by (rewrite seq_length; lia). rewrite seq_length.
    rewrite !lookup_seq_lt by lia. simpl. f_equal. lia.
  - rewrite lookup_seq_ge by lia. rewrite lookup_ge_None_2 by (rewrite reverse_length, seq_length; lia). done.
Qed.

(** Turning changes only the gap below the cakes turned. *)
Lemma gapb_turned N l op n : length l = N → 0 < op < N → n < N →
  gapb N (turned op l) n =
    if decide (n < op) then gapb N l (op - 1 - n) else if decide (n = op) then gapb N (turned op l) op else gapb N l n.
Proof.
  intros Hl Hop Hn. case_decide as Hno.
  - unfold gapb, gap. rewrite !(decide_True (P := _ < N)) by lia. rewrite !(decide_False (P := _ = N - 1)) by lia.
    rewrite !turned_lookup by lia. rewrite !decide_True by lia.
    replace (op - n) with (op - 1 - n + 1) by lia. replace (op - (n + 1)) with (op - 1 - n) by lia.
    destruct (l !! (op - 1 - n)) as [x|], (l !! (op - 1 - n + 1)) as [y|]; simpl; try done.
    f_equal. apply bool_decide_ext. lia.
  - case_decide as He; [by subst|]. unfold gapb, gap. rewrite !(decide_True (P := n < N)) by lia.
    case_decide.
    + rewrite turned_lookup by lia. by rewrite decide_False by lia.
    + rewrite !turned_lookup by lia. by rewrite !decide_False by lia.
Qed.

Lemma sumgaps_turned N l op : length l = N → 0 < op < N →
  sumgaps (gapb N (turned op l)) (seq 0 N) =
    (sumgaps (gapb N l) (seq 0 N) - nval (gapb N l op) + nval (gapb N (turned op l) op))%Z.
Proof.
  intros Hl Hop.
  assert (Hs : seq 0 N = seq 0 op ++ op :: seq (S op) (N - S op)).
  { replace N with (op + S (N - S op)) at 1 by lia. by rewrite seq_app. }
  rewrite Hs, !sumgaps_app. simpl.
  assert (sumgaps (gapb N (turned op l)) (seq 0 op) = sumgaps (gapb N l) (seq 0 op)) as ->.
  { rewrite <-(sumgaps_perm (gapb N l) _ _ (reverse_Permutation (seq 0 op))), <-rev_seq, sumgaps_map.
    apply sumgaps_ext. intros n Hn. apply elem_of_seq in Hn. rewrite gapb_turned by lia.
    by rewrite decide_True by lia. }
  assert (sumgaps (gapb N (turned op l)) (seq (S op) (N - S op)) =
          sumgaps (gapb N l) (seq (S op) (N - S op))) as ->.
  { apply sumgaps_ext. intros n Hn. apply elem_of_seq in Hn. rewrite gapb_turned by lia.
    by rewrite !decide_False by lia. }
  lia.
Qed.

(** ** One edge *)

(** The heuristic value kept is the number of gaps. *)
Definition wf (N : nat) (s : state) : Prop := length (cakes s) = N ∧ ngaps N (cakes s) = Some (hval s).

Lemma operators_elem N op : op ∈ operators N ↔ ∃ p, op = Z.of_nat p ∧ 0 < p < N.
Proof.
  unfold operators. rewrite elem_of_list_fmap. split.
  - intros (i & -> & Hi). apply elem_of_seq in Hi. exists (S i). lia.
  - intros (p & -> & Hp). exists (p - 1). split; [lia|]. apply elem_of_seq. lia.
Qed.

Lemma edge_spec N s op : wf N s → 0 < op < N →
  ∃ e, mkedge N s (Z.of_nat op) = Some e ∧ e_cost e = 1%Z ∧ e_revop e = Z.of_nat op ∧ e_oldh e = hval s ∧
    cakes (e_state e) = turned op (cakes s) ∧ wf N (e_state e) ∧ (Z.abs (hval (e_state e) - hval s) ≤ 1)%Z.
Proof.
  intros [Hl Hh] Hop. unfold mkedge. rewrite Nat2Z.id, gap_Some by lia. simpl.
  rewrite flip_turned by lia. simpl. rewrite gap_Some by (rewrite ?turned_length; lia). simpl.
  eexists. split; [done|]. do 4 (split; [done|]). rewrite ngaps_sum in Hh by done. injection Hh as Hh.
  split; [split|].
  - simpl. by rewrite turned_length.
  - simpl. rewrite ngaps_sum by (by rewrite turned_length). f_equal. rewrite sumgaps_turned by done.
    rewrite Hh. unfold nval. destruct (gapb N (cakes s) op), (gapb N (turned op (cakes s)) op); simpl; lia.
  - simpl. destruct (gapb N (cakes s) op), (gapb N (turned op (cakes s)) op); simpl; lia.
Qed.

(** What the program reaches from the stack [init]: it makes and destroys edges. *)
Inductive reached (N : nat) (init : list Z) : state → Prop :=
  | reached_init s : initialstate N init = Some s → reached N init s
  | reached_edge s op e : reached N init s → op ∈ operators N → mkedge N s op = Some e →
      reached N init (e_state e)
  | reached_undo s op e s' : reached N init s → op ∈ operators N → mkedge N s op = Some e →
      rmedge N e = Some s' → reached N init s'.

Lemma initial_wf N init : length init = N → ∃ s, initialstate N init = Some s ∧ cakes s = init ∧ wf N s.
Proof.
  intros Hl. unfold initialstate. rewrite ngaps_sum by done. simpl. eexists. split; [done|].
  split; [done|]. split; [done|]. simpl. by apply ngaps_sum.
Qed.

Lemma undo N s op e : wf N s → 0 < op < N → mkedge N s (Z.of_nat op) = Some e → rmedge N e = Some s.
Proof.
  intros Hwf Hop He. destruct (edge_spec N s op Hwf Hop) as (e' & He' & _ & Hr & Ho & Hc & _).
  rewrite He in He'. injection He' as <-. pose proof Hwf as [Hl _].
  unfold rmedge. rewrite Hr, Hc, flip_turned by (rewrite ?turned_length; lia). simpl.
  rewrite turned_twice by lia. rewrite Ho. by destruct s.
Qed.

Lemma reached_wf N init s : length init = N → reached N init s → wf N s ∧ cakes s ≡ₚ init.
Proof.
  intros Hl. induction 1 as [s Hi|s op e Hr [IH IHp] Hop He|s op e s' Hr [IH IHp] Hop He Hu].
  - destruct (initial_wf N init Hl) as (s' & Hi' & Hc & Hwf). assert (s' = s) as -> by congruence.
    split; [done|]. by rewrite Hc.
  - apply operators_elem in Hop as (p & -> & Hp).
    destruct (edge_spec N s p IH Hp) as (e' & He' & _ & _ & _ & Hc & Hwf & _).
    rewrite He in He'. injection He' as <-. split; [done|]. by rewrite Hc, turned_perm.
  - apply operators_elem in Hop as (p & -> & Hp). rewrite (undo N s p e IH Hp He) in Hu. by injection Hu as <-.
Qed.

(** ** C51 *)

(** From every state the program can reach, whatever integers the stack is made of: every operator
    gives an edge, which turns the cakes above and including its position; destroying it restores
    the state; the reverse operator leads back. *)
Theorem C51_flip_undone N init s op :
  length init = N → reached N init s → op ∈ operators N →
  ∃ e, mkedge N s op = Some e ∧
    cakes (e_state e) = turned (Z.to_nat op) (cakes s) ∧
    rmedge N e = Some s ∧
    ∃ e', mkedge N (e_state e) (e_revop e) = Some e' ∧ e_state e' = s ∧ e_revop e' = op.
Proof.
  intros Hl Hr Hop. destruct (reached_wf N init s Hl Hr) as [Hwf _].
  apply operators_elem in Hop as (p & -> & Hp).
  destruct (edge_spec N s p Hwf Hp) as (e & He & _ & Hrev & _ & Hc & Hwf' & _).
  exists e. split; [done|]. rewrite Nat2Z.id. split; [done|]. split; [by eapply undo|].
  rewrite Hrev. destruct (edge_spec N (e_state e) p Hwf' Hp) as (e' & He' & _ & Hrev' & _ & Hc' & Hwf'' & _).
  exists e'. split; [done|]. split; [|done].
  assert (cakes (e_state e') = cakes s) as Heq.
  { destruct Hwf as [Hls _]. rewrite Hc', Hc, turned_twice by lia. done. }
  destruct Hwf as [_ Hh], Hwf'' as [_ Hh'']. rewrite Heq, Hh in Hh''. injection Hh'' as Hh''.
  destruct s, (e_state e'). simpl in *. congruence.
Qed.

(** The heuristic value kept is what counting all gaps anew would give. *)
Theorem C51_gaps_exact N init s :
  length init = N → reached N init s → ngaps N (cakes s) = Some (hval s).
Proof. intros Hl Hr. apply (reached_wf N init s Hl Hr). Qed.

(** ** C52 *)

(** For stacks of cakes 0..N-1 the gaps counted are the breaks of the stack with its plate. *)
Lemma breaks_app2 l x y : breaks (l ++ [x; y]) = (breaks (l ++ [x]) + nval (negb (bool_decide (Z.abs (x - y) = 1))))%Z.
Proof.
  induction l as [|a [|c l] IH].
  - simpl. unfold nval. repeat (case_decide || case_bool_decide); simpl; lia.
  - simpl in *. unfold nval in *. repeat (case_decide || case_bool_decide); simpl in *; lia.
  - change ((if decide (Z.abs (a - c) = 1) then 0 else 1) + breaks ((c :: l) ++ [x; y]) =
      (if decide (Z.abs (a - c) = 1) then 0 else 1) + breaks ((c :: l) ++ [x]) +
      nval (negb (bool_decide (Z.abs (x - y) = 1))))%Z. rewrite IH. lia.
Qed.

Lemma sumgaps_breaks l : sumgaps (λ n, default false (x ← l !! n; y ← l !! S n;
    Some (negb (bool_decide (Z.abs (x - y) = 1)%Z)))) (seq 0 (length l - 1)) = breaks l.
Proof.
  induction l as [|a [|c l] IH]; [done|done|].
  replace (length (a :: c :: l) - 1) with (S (length (c :: l) - 1)) by (simpl; lia).
  rewrite <-cons_seq, <-fmap_S_seq. cbn [sumgaps foldr]. fold (sumgaps (λ n, default false (x ← (a :: c :: l) !! n; y ← (a :: c :: l) !! S n;
    Some (negb (bool_decide (Z.abs (x - y) = 1)%Z)))) (S <$> seq 0 (length (c :: l) - 1))).
  rewrite sumgaps_map. etrans; [|change (breaks (a :: c :: l)) with ((if decide (Z.abs (a - c) = 1) then 0 else 1) + breaks (c :: l))%Z; reflexivity].
  rewrite <-IH. f_equal. simpl. unfold nval. case_bool_decide; case_decide; done.
Qed.

Lemma perm_range N l i x : l ≡ₚ sorted_stack N → l !! i = Some x → (0 ≤ x < Z.of_nat N)%Z.
Proof.
  intros Hp Hi. apply elem_of_list_lookup_2 in Hi. rewrite Hp in Hi. unfold sorted_stack in Hi.
  apply elem_of_list_fmap in Hi as (n & -> & Hn). apply elem_of_seq in Hn. lia.
Qed.
Lemma perm_length N l : l ≡ₚ sorted_stack N → length l = N.
Proof. intros ->. unfold sorted_stack. by rewrite fmap_length, seq_length. Qed.
Lemma perm_NoDup N l : l ≡ₚ sorted_stack N → NoDup l.
Proof. intros ->. apply NoDup_fmap; [apply _|apply NoDup_seq]. Qed.
Lemma sorted_lookup N i : i < N → sorted_stack N !! i = Some (Z.of_nat i).
Proof. intros Hi. unfold sorted_stack. rewrite list_lookup_fmap, lookup_seq_lt by done. done. Qed.

(** The gap at [n] in terms of the stack on its plate. *)
Lemma gapb_plate N l n : l ≡ₚ sorted_stack N → n < N →
  gapb N l n = default false (x ← (l ++ [Z.of_nat N]) !! n; y ← (l ++ [Z.of_nat N]) !! S n;
    Some (negb (bool_decide (Z.abs (x - y) = 1)%Z))).
Proof.
  intros Hp Hn. pose proof (perm_length N l Hp) as Hl.
  destruct (lookup_lt_is_Some_2 l n) as [x Hx]; [lia|].
  rewrite (lookup_app_l _ _ n), Hx by lia. simpl. unfold gapb, gap. rewrite decide_True by lia.
  pose proof (perm_range N l n x Hp Hx). case_decide as Hn1.
  - subst n. rewrite Hx. rewrite lookup_app_r by lia. replace (S (N - 1) - length l) with 0 by lia. simpl.
    f_equal. apply bool_decide_ext. lia.
  - rewrite Hx. rewrite lookup_app_l by lia. replace (n + 1) with (S n) by lia.
    destruct (lookup_lt_is_Some_2 l (S n)) as [y ->]; [lia|]. done.
Qed.

Lemma sumgaps_plate N l : l ≡ₚ sorted_stack N → sumgaps (gapb N l) (seq 0 N) = breaks (l ++ [Z.of_nat N]).
Proof.
  intros Hp. pose proof (perm_length N l Hp) as Hl. rewrite <-sumgaps_breaks.
  rewrite app_length. simpl. replace (length l + 1 - 1) with N by lia.
  apply sumgaps_ext. intros n Hn. apply elem_of_seq in Hn. by apply gapb_plate; [|lia].
Qed.

Lemma sumgaps_nonneg f ns : (0 ≤ sumgaps f ns)%Z.
Proof. induction ns as [|n ns IH]; simpl; [done|]. unfold nval. destruct (f n); lia. Qed.
Lemma sumgaps_zero f ns : sumgaps f ns = 0%Z ↔ ∀ n, n ∈ ns → f n = false.
Proof.
  induction ns as [|n ns IH]; simpl.
  - split; [|done]. intros _ n Hn. by apply elem_of_nil in Hn.
  - pose proof (sumgaps_nonneg f ns). split.
    + intros Hs m Hm. unfold nval in Hs. destruct (f n) eqn:E; [lia|].
      apply elem_of_cons in Hm as [->|Hm]; [done|]. apply IH; [lia|done].
    + intros Ha. rewrite (Ha n) by set_solver. unfold nval. apply IH. set_solver.
Qed.

Lemma no_gap_sorted N l : l ≡ₚ sorted_stack N → (∀ n, n < N → gapb N l n = false) → l = sorted_stack N.
Proof.
  intros Hp Hg. pose proof (perm_length N l Hp) as Hl. pose proof (perm_NoDup N l Hp) as Hnd.
  assert (Hk : ∀ k, k < N → l !! (N - 1 - k) = Some (Z.of_nat (N - 1 - k))).
  { induction k as [k IH] using lt_wf_ind. intros HkN.
    destruct (lookup_lt_is_Some_2 l (N - 1 - k)) as [x Hx]; [lia|]. rewrite Hx. f_equal.
    pose proof (perm_range N l _ x Hp Hx) as Hr.
    specialize (Hg (N - 1 - k)). unfold gapb, gap in Hg. rewrite decide_True in Hg by lia.
    destruct k as [|k].
    - rewrite decide_True in Hg by lia. replace (N - 1 - 0) with (N - 1) in Hx by lia. rewrite Hx in Hg.
      simpl in Hg. specialize (Hg ltac:(lia)). case_bool_decide; [lia|done].
    - rewrite decide_False in Hg by lia. rewrite Hx in Hg. replace (N - 1 - S k + 1) with (N - 1 - k) in Hg by lia.
      rewrite (IH k) in Hg by lia. simpl in Hg. specialize (Hg ltac:(lia)). case_bool_decide as Hab; [|done].
      destruct (decide (x = Z.of_nat (N - 1 - k) + 1)%Z) as [->|Hne]; [|lia].
      destruct k as [|k]; [lia|]. specialize (IH k ltac:(lia) ltac:(lia)).
      replace (Z.of_nat (N - 1 - S k) + 1)%Z with (Z.of_nat (N - 1 - k)) in Hx by lia.
      pose proof (NoDup_lookup l _ _ _ Hnd Hx IH). lia. }
  apply list_eq. intros i. destruct (decide (i < N)) as [Hi|Hi].
  - rewrite sorted_lookup by done. specialize (Hk (N - 1 - i)). replace (N - 1 - (N - 1 - i)) with i in Hk by lia.
    apply Hk. lia.
  - rewrite !lookup_ge_None_2; [done| |lia]. unfold sorted_stack. rewrite fmap_length, seq_length. lia.
Qed.

Lemma sorted_no_gap N n : n < N → gapb N (sorted_stack N) n = false.
Proof.
  intros Hn. unfold gapb, gap. rewrite decide_True by done. case_decide as He.
  - rewrite sorted_lookup by lia. simpl. rewrite bool_decide_eq_true_2 by lia. done.
  - rewrite !sorted_lookup by lia. simpl. rewrite bool_decide_eq_true_2 by lia. done.
Qed.

(** The heuristic counts the breaks between the cakes, and between the last cake and the plate. *)
Theorem C52_counts_breaks N init s :
  init ≡ₚ sorted_stack N → reached N init s → hval s = breaks (cakes s ++ [Z.of_nat N]).
Proof.
  intros Hp Hr. destruct (reached_wf N init s (perm_length N init Hp) Hr) as [[Hl Hh] Hps].
  rewrite ngaps_sum in Hh by done. injection Hh as <-. apply sumgaps_plate. by rewrite Hps.
Qed.

(** A stack is taken for solved exactly if it is sorted. *)
Theorem C52_zero_exactly_at_sorted N init s :
  init ≡ₚ sorted_stack N → reached N init s → isgoal s = true ↔ cakes s = sorted_stack N.
Proof.
  intros Hp Hr. destruct (reached_wf N init s (perm_length N init Hp) Hr) as [[Hl Hh] Hps].
  rewrite ngaps_sum in Hh by done. injection Hh as Hh. unfold isgoal. rewrite bool_decide_eq_true, <-Hh.
  rewrite sumgaps_zero. split.
  - intros Hg. apply no_gap_sorted; [by rewrite Hps|]. intros n Hn. apply Hg. apply elem_of_seq. lia.
  - intros -> n Hn. apply elem_of_seq in Hn. apply sorted_no_gap. lia.
Qed.

Theorem C52_changes_by_at_most_one N init s op e :
  length init = N → reached N init s → op ∈ operators N → mkedge N s op = Some e →
  (Z.abs (hval (e_state e) - hval s) ≤ e_cost e)%Z.
Proof.
  intros Hl Hr Hop He. destruct (reached_wf N init s Hl Hr) as [Hwf _].
  apply operators_elem in Hop as (p & -> & Hp).
  destruct (edge_spec N s p Hwf Hp) as (e' & He' & Hc & _ & _ & _ & _ & Hab).
  rewrite He in He'. injection He' as <-. by rewrite Hc.
Qed.

(** No fewer flips than gaps sort the stack: flips turn tops of the stack, whatever the program does. *)
Theorem C52_lower_bound N init s (os : list nat) :
  init ≡ₚ sorted_stack N → reached N init s → Forall (λ op, 0 < op < N) os →
  foldl (λ l op, turned op l) (cakes s) os = sorted_stack N → (hval s ≤ Z.of_nat (length os))%Z.
Proof.
  intros Hp. revert s. induction os as [|op os IH]; intros s Hr Hos Hf.
  - simpl in *. pose proof (proj2 (C52_zero_exactly_at_sorted N init s Hp Hr) Hf) as Hg.
    apply bool_decide_eq_true in Hg. lia.
  - apply Forall_cons in Hos as [Hop Hos]. pose proof (perm_length N init Hp) as Hl.
    destruct (reached_wf N init s Hl Hr) as [Hwf _].
    destruct (edge_spec N s op Hwf Hop) as (e & He & _ & _ & _ & Hc & _ & Hab).
    simpl in Hf. rewrite <-Hc in Hf. assert (reached N init (e_state e)) as Hr'.
    { eapply reached_edge; [done| |done]. apply operators_elem. by exists op. }
    specialize (IH _ Hr' Hos Hf). simpl. lia.
Qed.

(** ** Examples *)

Example ex_flip : flip 5 [4; 1; 3; 0; 2]%Z 3%Z = Some [0; 3; 1; 4; 2]%Z.
Proof. done. Qed.
Example ex_perm : [3; 0; 1; 2; 4]%Z ≡ₚ sorted_stack 5.
Proof. refine (bool_decide_unpack _ _). by vm_compute. Qed.
(** Two gaps; two flips sort it. *)
Example ex_state : reached 5 [3; 0; 1; 2; 4]%Z (State [3; 0; 1; 2; 4]%Z 2).
Proof. apply reached_init. done. Qed.
Example ex_solved : ∃ e, mkedge 5 (State [3; 0; 1; 2; 4]%Z 2) 3%Z = Some e ∧ e_state e = State [2; 1; 0; 3; 4]%Z 1 ∧
  ∃ e', mkedge 5 (e_state e) 2%Z = Some e' ∧ e_state e' = State [0; 1; 2; 3; 4]%Z 0.
Proof. do 2 (eexists; split; [vm_compute; reflexivity|]; try (split; [done|])). done. Qed.

Print Assumptions C51_flip_undone.
Print Assumptions C51_gaps_exact.
Print Assumptions C52_counts_breaks.
Print Assumptions C52_zero_exactly_at_sorted.
Print Assumptions C52_changes_by_at_most_one.
Print Assumptions C52_lower_bound.
