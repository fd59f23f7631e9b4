(** The dock robot domain with A*: C78. *)
From stdpp Require Import prelude sorting.
From Coq Require Import ZArith Lia ZifyBool ZifyNat.
From Verif Require Import Common.Fuel Drobot.Model Drobot.Props Drobot.Pack Drobot.Heur.
From Verif Require Import Search.Open Search.Model Search.Props Search.Solve.

(** ** Contents *)

(** What a packed state determines (C61): the locations, the robot's box and its location. *)
Notation contents := (list loc * option nat * nat)%type.
Definition contents_of (s : state) : contents := (locs s, rbox s, rloc s).

Global Instance loc_eq_dec : EqDecision loc.
Proof. solve_decision. Defined.
Global Instance strongly_sorted_dec {A} (R : A → A → Prop) `{∀ x y, Decision (R x y)} l : Decision (StronglySorted R l).
Proof.
  induction l as [|x l IH]; [left; constructor|]. destruct IH as [IH|IH]; [|right; intros [? ?]%StronglySorted_inv; done].
  destruct (decide (Forall (R x) l)) as [Hf|Hf]; [left; by constructor|right; intros [? ?]%StronglySorted_inv; done].
Defined.

Record good_contents (d : drobot) (x : contents) : Prop := {
  gc_fits : fits d x.1.1 x.1.2 x.2;
  gc_order i l : x.1.1 !! i = Some l → crane_order (cranes l) ∧ pile_order (piles l);
}.
Definition good_contents' (d : drobot) (x : contents) : Prop :=
  length x.1.1 = nlocs d ∧ x.2 < nlocs d ∧
  Forall (λ l, [] ∉ piles l ∧ crane_order (cranes l) ∧ pile_order (piles l)) x.1.1 ∧
  Forall (λ lm : loc * nat, length (cranes lm.1) ≤ lm.2) (zip x.1.1 (maxcranes d)) ∧
  Forall (λ lm : loc * nat, length (piles lm.1) ≤ lm.2) (zip x.1.1 (maxpiles d)) ∧
  concat (boxes_of <$> x.1.1) ++ obox x.1.2 ≡ₚ seq 0 (nboxes d).
Lemma good_contents_iff d x : good_contents d x ↔ good_contents' d x.
Proof.
  assert (Hzip : ∀ (A B : Type) (P : A → B → Prop) (l : list A) (k : list B),
    Forall (λ p : A * B, P p.1 p.2) (zip l k) ↔ ∀ i a b, l !! i = Some a → k !! i = Some b → P a b).
  { intros A B P l k. rewrite Forall_lookup. split.
    - intros H i a b Ha Hb. apply (H i (a, b)). apply lookup_zip_with_Some. eauto.
    - intros H i [a b] Hi. apply lookup_zip_with_Some in Hi as (a' & b' & [= -> ->] & Ha & Hb). eauto. }
  unfold good_contents'. rewrite (Hzip loc nat (λ l m, length (cranes l) ≤ m)), (Hzip loc nat (λ l m, length (piles l) ≤ m)).
  rewrite Forall_lookup. split.
  - intros [[] Ho]. split_and!; try done. intros i l Hl. split; [eauto|]. by eapply Ho.
  - intros (H1 & H2 & H3 & H4 & H5 & H6). split; [split; try done|].
    + intros i l Hl. by apply (H3 i l).
    + intros i l Hl. by apply (H3 i l).
Qed.
Global Instance crane_order_dec l : Decision (crane_order l).
Proof. unfold crane_order. apply _. Defined.
Global Instance pile_order_dec l : Decision (pile_order l).
Proof. unfold pile_order. apply _. Defined.
Global Instance good_contents_dec d x : Decision (good_contents d x).
Proof. refine (cast_if (decide (good_contents' d x))); by rewrite good_contents_iff. Defined.

Lemma good_contents_of d s : good_state d s → good_contents d (contents_of s).
Proof. intros Hs. split; [by apply good_fits|]. simpl. intros i l Hl. split; apply (gs_loc d s Hs i l Hl). Qed.

(** ** Operators do not look at anything else *)
Lemma same_operators d s t : contents_of s = contents_of t → operators d s = operators d t.
Proof. unfold contents_of. intros [= H1 H2 H3]. unfold operators. by rewrite H1, H2, H3. Qed.
Lemma same_goal d s t : good_state d s → good_state d t → contents_of s = contents_of t → nleft s = nleft t.
Proof.
  intros Hs Ht [= H1 H2 H3]. rewrite (gs_left d s Hs), (gs_left d t Ht). do 2 f_equal. apply list_filter_iff.
  intros b. unfold misplaced, located. by rewrite H1, H2, H3.
Qed.
Lemma same_apply d s t o a : contents_of s = contents_of t → length (boxlocs s) = length (boxlocs t) →
  apply d s o = Some a →
  ∃ a', apply d t o = Some a' ∧ contents_of (a_state a') = contents_of (a_state a) ∧
    a_cost a' = a_cost a ∧ a_revop a' = a_revop a.
Proof.
  unfold contents_of. intros [= H1 H2 H3] Hbl. destruct s as [ls bl rb rl h1 h2 n], t as [ls' bl' rb' rl' h1' h2' n'].
  cbn [locs rbox rloc boxlocs] in *. subst ls' rb' rl'.
  unfold apply, setloc, setrbox. cbn [locs rbox rloc boxlocs nleft sh sd]. destruct o as [|c p|p|c| |j]; [done|..].
  - destruct (ls !! rl) as [l|]; [|done]. cbn [mbind option_bind]. destruct (rmcrane l c) as [[box l1]|]; [|done]. cbn [mbind option_bind].
    destruct (match p ≫= _ with Some _ => _ | None => _ end) as [[bot sz]|]; [|done]. cbn [mbind option_bind].
    destruct (push l1 box p) as [l2|]; [|done]. cbn [mbind option_bind]. destruct (findpile l2 bot) as [[q|]|]; [|done..]. cbn [mbind option_bind].
    intros Ha. apply (inj Some) in Ha as <-. by eexists.
  - destruct (ls !! rl) as [l|]; [|done]. cbn [mbind option_bind]. destruct (piles l !! p) as [st|]; [|done]. cbn [mbind option_bind].
    destruct (head st) as [bot|]; [|done]. cbn [mbind option_bind]. destruct (pop l p) as [[box l1]|]; [|done]. cbn [mbind option_bind].
    destruct (findcrane (addcrane l1 box) box) as [[c|]|]; [|done..]. cbn [mbind option_bind].
    destruct (if bool_decide (length st = 1) then _ else _) as [q|]; [|done]. cbn [mbind option_bind].
    intros Ha. apply (inj Some) in Ha as <-. by eexists.
  - destruct rb as [b|]; [done|]. destruct (ls !! rl) as [l|]; [|done]. cbn [mbind option_bind].
    destruct (rmcrane l c) as [[box l1]|]; [|done]. cbn [mbind option_bind]. intros Ha. apply (inj Some) in Ha as <-. by eexists.
  - destruct rb as [b|]; [|done]. cbn [mbind option_bind]. destruct (ls !! rl) as [l|]; [|done]. cbn [mbind option_bind].
    destruct (maxcranes d !! rl) as [m|]; [|done]. cbn [mbind option_bind]. case_bool_decide; [|done].
    destruct (findcrane (addcrane l b) b) as [[c|]|]; [|done..]. cbn [mbind option_bind].
    intros Ha. apply (inj Some) in Ha as <-. by eexists.
  - intros Ha.
    assert (Hx : ∃ bl1 n1 bl2 n2,
      (match rb with None => Some (bl, n) | Some b => g ← goal d !! b;
        match g with None => Some (bl, n) | Some g => if bool_decide (b < length bl) then
          Some (<[b := j]> bl, if bool_decide (g = rl) then n + 1 else if bool_decide (g = j) then n - 1 else n)%Z else None end end) = Some (bl1, n1) ∧
      (match rb with None => Some (bl', n') | Some b => g ← goal d !! b;
        match g with None => Some (bl', n') | Some g => if bool_decide (b < length bl') then
          Some (<[b := j]> bl', if bool_decide (g = rl) then n' + 1 else if bool_decide (g = j) then n' - 1 else n')%Z else None end end) = Some (bl2, n2)).
    { destruct rb as [b|]; [|by eexists _, _, _, _]. destruct (goal d !! b) as [[g|]|]; [| |done].
      - cbn [mbind option_bind] in *. rewrite <-Hbl. destruct (bool_decide (b < length bl)); [|done]. by eexists _, _, _, _.
      - by eexists _, _, _, _. }
    destruct Hx as (bl1 & n1 & bl2 & n2 & Hx1 & Hx2). rewrite Hx1 in Ha. rewrite Hx2. cbn [mbind option_bind] in *.
    destruct (adj d !! rl ≫= λ r, r !! j) as [x|]; [|done]. cbn [mbind option_bind] in *.
    destruct (adj d !! j ≫= λ r, r !! rl) as [y|]; [|done]. cbn [mbind option_bind] in *.
    apply (inj Some) in Ha as <-. by eexists.
Qed.

(** ** All contents *)
Fixpoint uplists {A} (n : nat) (L : list A) : list (list A) :=
  match n with
  | 0 => [[]]
  | S n => [] :: flat_map (λ x, map (cons x) (uplists n L)) L
  end.
Lemma uplists_all {A} n (L l : list A) : length l ≤ n → (∀ x, x ∈ l → x ∈ L) → l ∈ uplists n L.
Proof.
  revert l. induction n as [|n IH]; intros [|x l] Hlen Hin; simpl in *; [left|lia|left|]. right.
  apply elem_of_flat_map. exists x. split; [apply Hin; left|]. apply elem_of_map. exists l. split; [done|].
  apply IH; [lia|]. intros y Hy. apply Hin. by right.
Qed.

Section domain.
Set Default Proof Using "All".
Context (d : drobot) (Hd : good_drobot d) (Hn : nonneg_costs d) (Hun : (0 ≤ un d)%Z).
Context (Hfin : ∀ i j, i < nlocs d → j < nlocs d → i ≠ j → is_Some (direct d i j)).
Context (t : list (xcost * xcost)) (Ht : initheuristic d = Some t).

Definition cell : Type := dsig (λ x, good_contents d x).
Definition cstore (x : contents) (dflt : cell) : cell :=
  match decide (good_contents d x) with left H => dexist x H | right _ => dflt end.
(** The state that unpacking builds. *)
Definition real (x : contents) : state := default (State [] [] None 0 None None 0) (mkstate d x.1.1 x.1.2 x.2).

Definition dr_domain : domain := {|
  St := cell; Op := oper; St_eq := _; Op_eq := _;
  nop := NoOp;
  ops x := default [] (operators d (real (proj1_sig x)));
  edge x o :=
    match mkedge d (real (proj1_sig x)) o with
    | Some e => (cstore (contents_of (a_state e.1)) x, default 0%Z (a_cost e.1), a_revop e.1)
    | None => (x, 0%Z, NoOp)
    end;
  isgoal x := Drobot.Model.isgoal (real (proj1_sig x));
|}.

Lemma real_good (x : cell) : good_state d (real (proj1_sig x)) ∧ contents_of (real (proj1_sig x)) = proj1_sig x.
Proof.
  pose proof (proj2_dsig x) as [Hf Ho]. destruct (C60_new_state_good d _ _ _ Hd Hf Ho) as (s & Hs & Hg & H1 & H2 & H3).
  unfold real. rewrite Hs. simpl. split; [done|]. unfold contents_of. rewrite H1, H2, H3. by destruct (proj1_sig x) as [[? ?] ?].
Qed.

(** An edge of the search is an edge of the code, from any state with these contents. *)
Lemma dr_step (x : cell) o s : good_state d s → contents_of s = proj1_sig x →
  o ∈ ops (d:=dr_domain) x → ∃ os e c, operators d s = Some os ∧ o ∈ os ∧ mkedge d s o = Some e ∧
    good_state d (a_state e.1) ∧ a_cost e.1 = Some c ∧ (0 ≤ c)%Z ∧
    contents_of (a_state e.1) = proj1_sig (dest (D:=dr_domain) x o) ∧ cost (D:=dr_domain) x o = c ∧ revop (D:=dr_domain) x o = a_revop e.1.
Proof.
  intros Hs Hc Ho. destruct (real_good x) as [Hr Hrc]. simpl in Ho.
  destruct (C60_operators_exact d s Hd Hs) as (os & Hos & Hiff).
  rewrite (same_operators d _ s (eq_trans Hrc (eq_sym Hc))), Hos in Ho. simpl in Ho.
  destruct (C60_edges_undone d s os o Hd Hs Hos Ho) as (e & He & _ & Hg & _ & Heff & _).
  assert (Hcost : ∃ c, a_cost e.1 = Some c ∧ (0 ≤ c)%Z).
  { apply Hiff in Ho as (l & mp & mc & _ & _ & _ & Hen). destruct o as [|i p|p|i| |j]; [done|..].
    - destruct Heff as (_ & _ & l1 & l' & box & _ & _ & _ & Hcost). destruct (p ≫= _).
      + destruct Hcost as [_ ->]. eexists. split; [done|]. unfold PopCostFact. nia.
      + destruct Hcost as [_ ->]. eexists. split; [done|]. unfold PopCostFact. lia.
    - destruct Heff as (_ & _ & l1 & l' & st & box & _ & _ & _ & _ & ->). eexists. split; [done|]. unfold PopCostFact. nia.
    - destruct Heff as (_ & _ & l1 & l' & box & _ & _ & _ & _ & _ & ->). eexists. split; [done|]. done.
    - destruct Heff as (_ & _ & l1 & l' & box & _ & _ & _ & _ & ->). eexists. split; [done|]. done.
    - destruct Heff as (_ & _ & _ & Hadj). destruct Hen as [Hj Hne].
      destruct (Hfin (rloc s) j) as [c Hc']; [apply (gs_rloc d s Hs)|done|done|]. exists c. 
      split; [|by eapply Hn]. unfold direct in Hc'. rewrite Hadj in Hc'. done. }
  destruct Hcost as (c & Hcost & Hc0). exists os, e, c. split_and!; try done.
  all: unfold mkedge in He; destruct (apply d s o) as [a|] eqn:Ha; [|done]; cbn [mbind option_bind] in He; apply (inj Some) in He; subst e; cbn [fst a_state a_cost a_revop] in *.
  all: destruct (same_apply d s (real (proj1_sig x)) o a) as (a' & Ha' & Hcc & Hac & Har); [congruence|by rewrite (gs_bllen d s Hs), (gs_bllen d _ Hr)|done|].
  - unfold dest. simpl. unfold mkedge. rewrite Ha'. simpl. unfold cstore.
    assert (E : contents_of (State (locs (a_state a')) (boxlocs (a_state a')) (rbox (a_state a')) (rloc (a_state a')) None None (nleft (a_state a'))) =
      contents_of (a_state a)) by (rewrite <-Hcc; done).
    change (contents_of (State (locs (a_state a)) (boxlocs (a_state a)) (rbox (a_state a)) (rloc (a_state a)) None None (nleft (a_state a))))
      with (contents_of (a_state a)).
    rewrite E. destruct (decide (good_contents d (contents_of (a_state a)))) as [|Hno]; [done|].
    exfalso. apply Hno. by apply (good_contents_of d _ Hg).
  - unfold cost. simpl. unfold mkedge. rewrite Ha'. simpl. by rewrite Hac, Hcost.
  - unfold revop. simpl. unfold mkedge. rewrite Ha'. done.
Qed.

Lemma dr_domain_ok : domain_ok dr_domain.
Proof.
  split.
  - intros x o Ho. destruct (real_good x) as [Hr Hrc].
    destruct (dr_step x o _ Hr Hrc Ho) as (os & e & c & _ & _ & _ & _ & _ & ? & _ & -> & _). done.
  - intros x o Ho Hrev. destruct (real_good x) as [Hr Hrc].
    destruct (dr_step x o _ Hr Hrc Ho) as (os & e & c & Hos & Hin & He & Hg & _ & _ & Hcon & _ & Hrv).
    destruct (C60_edges_undone d _ os o Hd Hr Hos Hin) as (e' & He' & Hun' & _). assert (e' = e) as -> by congruence.
    destruct (dr_step _ _ _ Hg Hcon Hrev) as (os2 & e2 & c2 & _ & _ & He2 & _ & _ & _ & Hcon2 & _).
    apply dsig_eq. rewrite <-Hcon2, <-Hrc. rewrite Hrv in He2.
    unfold unedge in Hun'. unfold mkedge in He2. destruct (apply d (a_state e.1) (a_revop e.1)) as [a2|]; [|done].
    cbn [mbind option_bind] in *. apply (inj Some) in He2, Hun'. subst e2. rewrite <-Hun'. done.
  - intros x Hin. destruct (real_good x) as [Hr Hrc]. simpl in Hin.
    destruct (C60_operators_exact d _ Hd Hr) as (os & Hos & Hiff). rewrite Hos in Hin. simpl in Hin.
    apply Hiff in Hin as (? & ? & ? & ? & ? & ? & []).
Qed.

Lemma walk_plan (ss : list (St dr_domain)) os k (x y : cell) s :
  walk ss os k → head ss = Some x → last ss = Some y → good_state d s → contents_of s = proj1_sig x →
  ∃ s', plan d s os s' k ∧ good_state d s' ∧ contents_of s' = proj1_sig y.
Proof.
  intros Hw. revert x s. induction Hw as [x1|x1 o ss os k Ho Hw IH]; intros x s Hh Hl Hs Hc; simpl in Hh; injection Hh as <-.
  - injection Hl as <-. exists s. split; [constructor|done].
  - destruct (dr_step x1 o s Hs Hc Ho) as (os1 & e & c & Hos & Hin & He & Hg & Hcost & _ & Hcon & -> & _).
    destruct (IH (dest (D:=dr_domain) x1 o) (a_state e.1) eq_refl Hl Hg Hcon) as (s' & Hp & Hs').
    exists s'. split; [|done]. by eapply plan_step.
Qed.
Lemma plan_walk s os s' k : plan d s os s' k → ∀ x : cell, good_state d s → contents_of s = proj1_sig x →
  ∃ (ss : list (St dr_domain)) (y : cell), walk ss os k ∧ head ss = Some x ∧ last ss = Some y ∧ contents_of s' = proj1_sig y ∧ good_state d s'.
Proof.
  induction 1 as [s|s os o e c rest s' c' Hos Ho He Hcost Hp IH]; intros x Hs Hc.
  - exists [x], x. split_and!; try done. constructor.
  - destruct (real_good x) as [Hr Hrc].
    assert (Hin : o ∈ ops (d:=dr_domain) x) by (simpl; rewrite (same_operators d _ s (eq_trans Hrc (eq_sym Hc))), Hos; done).
    destruct (dr_step x o s Hs Hc Hin) as (os1 & e1 & c1 & Hos1 & _ & He1 & Hg & Hcost1 & _ & Hcon & Hcc & _).
    assert (e1 = e) as -> by congruence. assert (c1 = c) as -> by congruence.
    destruct (IH (dest (D:=dr_domain) x o) Hg Hcon) as (ss & y & Hw & Hh & Hl & Hy).
    destruct ss as [|x1 ss]; [done|]. simpl in Hh. injection Hh as ->.
    exists (x :: dest (D:=dr_domain) x o :: ss), y. split_and!; try done; try apply Hy.
    rewrite <-Hcc. by constructor.
Qed.

Definition dr_h (x : St dr_domain) : Z :=
  match hd d t (real (proj1_sig x)) with Some (Some h, _) => h | _ => 0%Z end.

Lemma dist_finite i j : i < nlocs d → j < nlocs d → ∃ c, dist d t i j = Some c ∧ (0 ≤ c)%Z.
Proof.
  intros Hi Hj. destruct (dist_cheapest d Hd Hn t Ht i j Hi Hj) as (_ & _ & _ & Hr & Hle).
  assert (Hroute : ∃ c, route d i j c).
  { destruct (decide (i = j)) as [->|Hne]; [exists 0%Z; constructor|]. destruct (Hfin i j Hi Hj Hne) as [c Hc].
    exists (c + 0)%Z. eapply route_cons; [exact Hj|done|constructor]. }
  destruct Hroute as [c0 Hc0]. specialize (Hle c0 Hc0). destruct (dist d t i j) as [c|]; [|done]. exists c. split; [done|].
  specialize (Hr c eq_refl). clear -Hr Hn. induction Hr as [|i m j c c' Hm Hdir Hr IH]; [lia|]. specialize (Hn _ _ _ Hdir). lia.
Qed.
Lemma dsum_finite bl b gs : (∀ i g, gs !! i = Some (Some g) → g < nlocs d ∧ ∃ l, bl !! (b + i) = Some l ∧ l < nlocs d) →
  ∃ c, dsum d t bl b gs = Some c ∧ (0 ≤ c)%Z.
Proof.
  revert b. induction gs as [|[g|] gs IH]; intros b Hr; cbn [dsum].
  - by exists 0%Z.
  - destruct (Hr 0 g eq_refl) as (Hg & l & Hl & Hln). rewrite Nat.add_0_r in Hl. rewrite Hl. simpl.
    destruct (dist_finite l g Hln Hg) as (c1 & -> & H1). destruct (IH (S b)) as (c2 & -> & H2).
    { intros i g' Hi. replace (S b + i) with (b + S i) by lia. by apply Hr. }
    exists (c1 + c2)%Z. split; [done|lia].
  - apply IH. intros i g' Hi. replace (S b + i) with (b + S i) by lia. by apply Hr.
Qed.
Lemma zsum_nonneg l : (∀ x, x ∈ l → 0 ≤ x)%Z → (0 ≤ zsum l)%Z.
Proof.
  clear. induction l as [|x l IH]; intros H; [done|]. rewrite zsum_cons. assert (0 ≤ x)%Z by (apply H; left).
  assert (0 ≤ zsum l)%Z; [|lia]. apply IH. intros y Hy. apply H. by right.
Qed.
Lemma hsum_nonneg i ls : (0 ≤ hsum d i ls)%Z.
Proof.
  assert (HL : (0 ≤ LoadCost d)%Z) by done.
  revert i. induction ls as [|l ls IH]; intros i; [done|]. cbn [hsum]. specialize (IH (S i)).
  assert (0 ≤ hloc d i l)%Z; [|lia]. unfold hloc. 
  apply Z.add_nonneg_nonneg; apply zsum_nonneg; intros x (y & -> & _)%elem_of_list_fmap.
  - unfold hbox. case_decide; done.
  - apply zsum_nonneg. intros z (k & b & -> & _)%elem_of_lookup_imap_1. unfold hbox, PopCostFact. case_decide; lia.
Qed.

(** The heuristic of the search is the one of the code. *)
Lemma dr_h_spec (x : St dr_domain) : ∃ y, hd d t (real (proj1_sig x)) = Some (Some (dr_h x), y) ∧ (0 ≤ dr_h x)%Z.
Proof.
  destruct (real_good x) as [Hs _]. destruct (hd_spec d Hd Hn Hun t Ht _ Hs) as (h & y & Hh & H0 & _ & H1).
  unfold dr_h. rewrite Hh. exists y. destruct (decide (nleft (real (proj1_sig x)) = 0%Z)) as [Hz|Hz].
  - rewrite (H0 Hz). done.
  - rewrite (H1 Hz). destruct (dsum_finite (boxlocs (real (proj1_sig x))) 0 (goal d)) as (c & -> & Hc).
    { intros b g Hbg. rewrite Nat.add_0_l. split; [by eapply gd_goal|].
      assert (Hlt : b < nboxes d) by (rewrite <-(gd_goals d Hd); by eapply lookup_lt_Some).
      destruct (box_located d _ Hd Hs b Hlt) as (i & Hi & Hin). exists i. split; [by eapply gs_bl|done]. }
    simpl. split; [done|]. pose proof (hsum_nonneg 0 (locs (real (proj1_sig x)))).
    pose proof (nleft_nonneg d _ Hs). assert (0 ≤ LoadCost d)%Z by done. nia.
Qed.

Lemma dr_h_nonneg (x : St dr_domain) : (0 ≤ dr_h x)%Z.
Proof. by destruct (dr_h_spec x) as (_ & _ & ?). Qed.
Lemma dr_h_admissible : admissible dr_h.
Proof.
  intros x ss os k (Hw & Hh & y & Hl & Hy). destruct (real_good x) as [Hs Hc].
  destruct (walk_plan ss os k x y _ Hw Hh Hl Hs Hc) as (s' & Hp & Hs' & Hc').
  destruct (dr_h_spec x) as (y' & Hhd & _).
  destruct (C77_heuristic_admissible d t _ Hd Hn Hun Ht Hs) as (h & y'' & Hhd' & Hadm).
  rewrite Hhd in Hhd'. injection Hhd' as <- <-. specialize (Hadm os s' k Hp). simpl in Hadm. apply Hadm.
  apply (C77_goal_test d s' Hd Hs'). simpl in Hy. unfold Drobot.Model.isgoal in *. destruct (real_good y) as [Hry Hyc].
  rewrite (same_goal d s' (real (proj1_sig y))); [done|done|done|congruence].
Qed.

Lemma dr_finite (x0 : St dr_domain) : finite_space x0.
Proof.
  set (bs := seq 0 (nboxes d)).
  set (sts := uplists (nboxes d) bs).
  set (locs_ := flat_map (λ cs, map (λ ps, Loc cs ps) (uplists (max_list (maxpiles d)) sts)) (uplists (max_list (maxcranes d)) bs)).
  exists ((λ p : list loc * option nat * nat, cstore p x0) <$>
    flat_map (λ ls, flat_map (λ rb, map (λ rl, (ls, rb, rl)) (seq 0 (nlocs d))) (None :: (Some <$> bs))) (uplists (nlocs d) locs_)).
  intros x _. destruct x as [[[ls rb] rl] Hx] eqn:Ex. pose proof (proj2_dsig x) as [Hf Ho]. rewrite Ex in Hf, Ho. simpl in Hf, Ho.
  apply elem_of_list_fmap. exists (ls, rb, rl). split.
  { apply dsig_eq. unfold cstore. destruct (decide (good_contents d (ls, rb, rl))) as [|Hno]; [done|]. exfalso. apply Hno. by split. }
  assert (Hin : ∀ b, b ∈ concat (boxes_of <$> ls) ++ obox rb → b ∈ bs).
  { intros b Hb. unfold bs. apply elem_of_seq. apply (fits_range d ls rb rl Hf) in Hb. lia. }
  apply elem_of_flat_map. exists ls. split.
  - apply uplists_all; [by rewrite (ft_locs d ls rb rl Hf)|]. intros l (i & Hi)%elem_of_list_lookup.
    assert (Hil : i < nlocs d) by (rewrite <-(ft_locs d ls rb rl Hf); by eapply lookup_lt_Some).
    destruct (lookup_lt_is_Some_2 (maxcranes d) i) as [mc Hmc]; [by rewrite (gd_mc d Hd)|].
    destruct (lookup_lt_is_Some_2 (maxpiles d) i) as [mp Hmp]; [by rewrite (gd_mp d Hd)|].
    assert (Hbox : ∀ b, b ∈ boxes_of l → b ∈ bs).
    { intros b Hb. apply Hin. apply elem_of_app. left. apply elem_of_list_In, in_concat. exists (boxes_of l). split; apply elem_of_list_In; [|done].
      apply elem_of_list_fmap. exists l. split; [done|]. by eapply elem_of_list_lookup_2. }
    apply elem_of_flat_map. exists (cranes l). split.
    + apply uplists_all.
      * etrans; [by eapply (ft_mc d ls rb rl Hf)|]. apply max_list_elem_of_le. by eapply elem_of_list_lookup_2.
      * intros b Hb. apply Hbox. apply elem_of_app. by left.
    + apply elem_of_map. exists (piles l). split; [by destruct l|]. apply uplists_all.
      * etrans; [by eapply (ft_mp d ls rb rl Hf)|]. apply max_list_elem_of_le. by eapply elem_of_list_lookup_2.
      * intros st (p & Hp)%elem_of_list_lookup. apply uplists_all.
        -- destruct st as [|b st]; [simpl; lia|].
           apply (proj2 (one_place d ls rb rl Hf) i l p (b :: st) 0 b Hi Hp). done.
        -- intros b Hb. apply Hbox. apply elem_of_app. right. apply elem_of_list_In, in_concat. exists st.
           split; apply elem_of_list_In; [by eapply elem_of_list_lookup_2|done].
  - apply elem_of_flat_map. exists rb. split.
    + destruct rb as [b|]; [|left]. right. apply elem_of_list_fmap. exists b. split; [done|]. apply Hin. apply elem_of_app. right. left.
    + apply elem_of_map. exists rl. split; [done|]. apply elem_of_seq. pose proof (ft_rloc d ls rb rl Hf). lia.
Qed.
End domain.

(** ** The path as DockRobot::pathcost sees it *)
Inductive follow (d : drobot) : state → list state → list oper → Z → state → Prop :=
| follow_nil s : follow d s [] [] 0 s
| follow_cons s o e c p ps os k t :
    mkedge d s o = Some e → a_cost e.1 = Some c → state_eq (a_state e.1) p = Some true →
    follow d (a_state e.1) ps os k t → follow d s (p :: ps) (o :: os) (c + k)%Z t.

Lemma follow_length d s ps os k t : follow d s ps os k t → length ps = length os.
Proof. induction 1; simpl; congruence. Qed.
Lemma pathcost_follow d s ps os k t pre preo c : follow d s ps os k t → Drobot.Model.isgoal t = true →
  pathcost_from d (length os) s (reverse ps ++ pre) (reverse os ++ preo) (Some c) = Some (Some (c + k)%Z).
Proof.
  intros Hf Hg. revert pre preo c. induction Hf as [s|s o e c1 p ps os k t He Hc Hq Hf IH]; intros pre preo c.
  - simpl. rewrite Hg. do 2 f_equal. lia.
  - cbn [length pathcost_from]. rewrite !reverse_cons, <-!app_assoc.
    pose proof (follow_length _ _ _ _ _ _ Hf) as Hlen.
    assert (E1 : (reverse os ++ [o] ++ preo) !! length os = Some o)
      by (rewrite lookup_app_r; rewrite reverse_length; [by rewrite Nat.sub_diag|lia]).
    assert (E2 : (reverse ps ++ [p] ++ pre) !! length os = Some p)
      by (rewrite lookup_app_r; rewrite reverse_length, Hlen; [by rewrite Nat.sub_diag|lia]).
    rewrite E1. cbn [mbind option_bind]. rewrite E2. cbn [mbind option_bind].
    rewrite He. cbn [mbind option_bind]. rewrite Hq. cbn [mbind option_bind]. rewrite Hc. cbn [xadd].
    rewrite IH by done. do 2 f_equal. lia.
Qed.

Definition reals (d : drobot) (path : list (cell d)) : list state := map (λ x : cell d, real d (proj1_sig x)) path.

Section follow.
Set Default Proof Using "All".
Context (d : drobot) (Hd : good_drobot d) (Hn : nonneg_costs d) (Hun : (0 ≤ un d)%Z).
Context (Hfin : ∀ i j, i < nlocs d → j < nlocs d → i ≠ j → is_Some (direct d i j)).
Context (t : list (xcost * xcost)) (Ht : initheuristic d = Some t).
Let RG := real_good d Hd Hn Hun Hfin t Ht.

Lemma walk_follow (ss : list (St (dr_domain d))) os k : walk ss os k →
  ∀ (x y : cell d) s, head ss = Some x → last ss = Some y → good_state d s → contents_of s = proj1_sig x →
  ∃ s', follow d s (reals d (tail ss)) os k s' ∧ good_state d s' ∧ contents_of s' = proj1_sig y.
Proof.
  induction 1 as [x1|x1 o ss os k Ho Hw IH]; intros x y s Hh Hl Hs Hc; simpl in Hh; injection Hh as <-.
  - injection Hl as <-. exists s. split; [constructor|done].
  - destruct (dr_step d Hd Hn Hun Hfin t Ht x1 o s Hs Hc Ho) as (os1 & e & c1 & Hos & Hin & He & Hg & Hcost & _ & Hcon & Hcc & _).
    destruct (IH (dest (D:=dr_domain d) x1 o) y (a_state e.1)) as (s' & Hf & Hs' & Hc'); [done..|].
    exists s'. split; [|done]. rewrite Hcc. cbn [tail]. unfold reals in *. cbn [map tail] in *.
    destruct (RG (dest (D:=dr_domain d) x1 o)) as [Hr Hrc]. apply eq_sym in Hcon. pose proof (eq_trans Hrc Hcon) as Hrc'.
    eapply follow_cons; [done|done| |done].
    pose proof (same_goal d _ _ Hr Hg Hrc'). unfold contents_of in Hrc'. injection Hrc' as H1 H2 H3.
    by apply state_eq_refl.
Qed.
End follow.

(** On every instance with finite non-negative distances, whose initial locations hold every box once
    within the limits and in order: A* ends; it reports a cheapest plan, and DockRobot::pathcost
    accepts it and returns its cost; or it reports that there is none, and then there is none. *)
Theorem C78_astar_plans d ls t s0 o (x : cell d) :
  good_drobot d → nonneg_costs d → (0 ≤ un d)%Z →
  (∀ i j, i < nlocs d → j < nlocs d → i ≠ j → is_Some (direct d i j)) →
  initheuristic d = Some t → initialstate d ls = Some s0 → proj1_sig x = (ls, None, 0) →
  ol_ok astar_lt nonneg_key o →
  (∃ path os st k, ends (astar (dr_domain d) (dr_h d t) o no_limits x) (Some (path, os), st) ∧
     pathcost d ls (reals d path) os = Some (Some k) ∧
     (∃ s', plan d s0 (reverse os) s' k ∧ Drobot.Model.isgoal s' = true) ∧
     ∀ os' s' k', plan d s0 os' s' k' → Drobot.Model.isgoal s' = true → (k ≤ k')%Z) ∨
  (∃ st, ends (astar (dr_domain d) (dr_h d t) o no_limits x) (None, st) ∧
     ∀ os' s' k', plan d s0 os' s' k' → Drobot.Model.isgoal s' = false).
Proof.
  intros Hd Hn Hun Hfin Ht Hs0 Hx OL.
  pose proof (real_good d Hd Hn Hun Hfin t Ht) as RG.
  assert (H0 : good_state d s0 ∧ contents_of s0 = proj1_sig x).
  { destruct (RG x) as [Hr Hrc]. unfold real in *. rewrite Hx in *. cbn [fst snd] in *. unfold initialstate in Hs0.
    destruct (mkstate d ls None 0) as [s|]; [|done]. cbn [mbind option_bind] in Hs0. destruct (pack d s); [|done]. cbn [mbind option_bind] in Hs0.
    destruct (unpack d _) as [s1|]; [|done]. cbn [mbind option_bind] in Hs0. destruct (state_eq s s1) as [[]|]; [|done..].
    cbn [mbind option_bind] in Hs0. injection Hs0 as <-. done. }
  destruct H0 as [Hg0 Hc0].
  assert (Hsame : ∀ s (y : cell d), good_state d s → contents_of s = proj1_sig y →
    Drobot.Model.isgoal s = isgoal (d:=dr_domain d) y).
  { intros s y Hs Hc. destruct (RG y) as [Hr Hrc]. simpl. unfold Drobot.Model.isgoal.
    rewrite (same_goal d s (real d (proj1_sig y))); [done|done|done|congruence]. }
  assert (Hsol : ∀ os' s' k', plan d s0 os' s' k' → Drobot.Model.isgoal s' = true → ∃ ss, solution (D:=dr_domain d) x ss os' k').
  { intros os' s' k' Hp Hs'. destruct (plan_walk d Hd Hn Hun Hfin t Ht _ _ _ _ Hp x Hg0 Hc0) as (ss & y & Hw & Hh & Hl & Hcy & Hgy).
    exists ss. split; [done|]. split; [done|]. exists y. split; [done|]. by rewrite <-(Hsame s' y). }
  destruct (astar_solves (dr_domain d) (dr_h d t) o (dr_domain_ok d Hd Hn Hun Hfin t Ht) OL
    (dr_h_nonneg d Hd Hn Hun Hfin t Ht) (dr_h_admissible d Hd Hn Hun Hfin t Ht) x (dr_finite d Hd Hn Hun Hfin t Ht x))
    as [(path & os & st & k & He & (Hw & Hh & y & Hl & Hy) & Hmin)|(st & He & Hno)].
  - left. exists path, os, st, k. split; [done|].
    destruct (walk_plan d Hd Hn Hun Hfin t Ht _ _ _ _ _ s0 Hw Hh Hl Hg0 Hc0) as (s' & Hp & Hs' & Hcs').
    split_and!; [|exists s'; split; [done|by rewrite (Hsame s' y)]|].
    + destruct (walk_follow d Hd Hn Hun Hfin t Ht _ _ _ Hw x y s0 Hh Hl Hg0 Hc0) as (s1 & Hf & Hs1 & Hcs1).
      unfold pathcost. rewrite Hs0. cbn [mbind option_bind].
      pose proof (pathcost_follow d _ _ _ _ _ (reals d [x]) [] 0%Z Hf) as Hpc.
      rewrite reverse_length, reverse_involutive, app_nil_r in Hpc.
      assert (Ep : reverse (reals d (tail (reverse path))) ++ reals d [x] = reals d path).
      { clear -Hh. rewrite <-(reverse_involutive path) at 2. revert Hh. unfold reals. generalize (reverse path). simpl.
        intros [|x' rp] Hh; simpl in Hh; [done|]. injection Hh as ->. cbn [tail].
        change (@map (cell d) state) with (@fmap list _ (cell d) state). rewrite reverse_cons, fmap_app, fmap_reverse. done. }
      rewrite Ep in Hpc. rewrite Hpc; [done|]. by rewrite (Hsame s1 y).
    + intros os' s2 k' Hp' Hg'. destruct (Hsol _ _ _ Hp' Hg') as [ss Hss]. by eapply Hmin.
  - right. exists st. split; [done|]. intros os' s' k' Hp. destruct (Drobot.Model.isgoal s') eqn:E; [|done].
    destruct (Hsol _ _ _ Hp E) as [ss Hss]. by destruct (Hno _ _ _ Hss).
Qed.

(** ** Example *)
Definition ex_init : contents := (ex_l, None, 0).
Lemma ex_init_good : good_contents ex_p ex_init.
Proof. apply (bool_decide_unpack _). by vm_compute. Qed.
Definition ex_x : cell ex_p := dexist (P:=λ y, good_contents ex_p y) ex_init ex_init_good.
Definition ex_t : list (xcost * xcost) := default [] (initheuristic ex_p).
(** The hypotheses of C78 hold of it. *)
Example ex_hyps : good_drobot ex_p ∧ nonneg_costs ex_p ∧ (0 ≤ un ex_p)%Z ∧
  (∀ i j, i < nlocs ex_p → j < nlocs ex_p → i ≠ j → is_Some (direct ex_p i j)) ∧
  initheuristic ex_p = Some ex_t ∧ is_Some (initialstate ex_p ex_l) ∧ proj1_sig ex_x = (ex_l, None, 0).
Proof.
  split_and!; try apply ex_p_good; try done.
  - intros i j Hi Hj Hij. simpl in *. destruct i as [|[|i]]; [| |lia]; (destruct j as [|[|j]]; [| |lia]); try done; by eexists.
Qed.
Example ex_astar :
  match astar (dr_domain ex_p) (dr_h ex_p ex_t) (heap_ol astar_lt (0, 0)%Z) no_limits ex_x 1000 with
  | Some (Some (path, os), _) => Some (os, pathcost ex_p ex_l (reals ex_p path) os)
  | _ => None
  end = Some ([Move 1; Load 0; Pop 0; Push 0 (Some 2); Pop 0], Some (Some 331%Z)).
Proof. vm_compute. done. Qed.

Print Assumptions C78_astar_plans.
