(** Invariants of ARA*. *)
From stdpp Require Import prelude.
From Coq Require Import ZArith Lia ZifyBool ZifyNat.
From Verif Require Import Common.Orders Common.Fuel Search.Model Search.Proofs Ara.Model.

(** Walks from [s0], by their end and cost. *)
Inductive wto {D : domain} (s0 : St D) : St D → Z → Prop :=
  | wto_start : wto s0 s0 0
  | wto_step t u op : wto s0 t u → op ∈ ops t → wto s0 (dest t op) (u + cost t op).

Lemma walk_wto {D : domain} (s0 : St D) ss os k s t u :
  walk ss os k → head ss = Some s → last ss = Some t → wto s0 s u → wto s0 t (u + k).
Proof.
  intros Hw. revert s u. induction Hw as [s1|s1 o ss os k Ho Hw IH]; intros s u Hh Hl Hs; simpl in Hh; injection Hh as <-.
  - injection Hl as <-. by rewrite Z.add_0_r.
  - rewrite Z.add_assoc. apply (IH (dest s1 o)); [done|exact Hl|]. by constructor.
Qed.

Section views.
Set Default Proof Using "All".
Context (D : domain) (h : St D → Z) (wd : Z) (s0 : St D).
Context (OK : domain_ok D) (Hh : ∀ s, (0 ≤ h s)%Z) (Hwd : (0 < wd)%Z).
Local Open Scope Z_scope.

Notation node := (node D (P:=Z)).
Notation chain := (chain D (P:=Z)).
Implicit Types (ns : list node).

(** What matters of a state: the nodes, the open list, the inconsistent nodes, the closed list, the
    cost of the incumbent; and the pairs (state, g) of all expansions so far. *)
Record view := View {
  v_ns : list node; v_op : list nat; v_in : list nat; v_cl : list nat; v_c : option Z; v_X : list (St D * Z) }.

Definition live (v : view) (i : nat) : Prop := i ∈ v_op v ∨ i ∈ v_in v.

(** State [t] can still be expanded with a g of at most [u], or was, or is not worth it. *)
Definition cov (v : view) (t : St D) (u : Z) : Prop :=
  (∃ i a, live v i ∧ v_ns v !! i = Some a ∧ n_state D a = t ∧ n_g D a ≤ u) ∨
  (∃ x, x ≤ u ∧ (t, x) ∈ v_X v) ∨
  (∃ c, v_c v = Some c ∧ c ≤ u + h t).

(** The same up to the weight [w/wd], from the open list only. *)
Definition wopen (w : Z) (v : view) (t : St D) (u : Z) : Prop :=
  ∃ i a, i ∈ v_op v ∧ v_ns v !! i = Some a ∧ n_state D a = t ∧ wd * n_g D a ≤ w * u.
Definition wdone (w : Z) (v : view) (t : St D) (u : Z) : Prop :=
  (∃ x, wd * x ≤ w * u ∧ (t, x) ∈ v_X v) ∨ (∃ c, v_c v = Some c ∧ wd * c ≤ w * (u + h t)).

(** [E t x op]: the successor by [op] of the expansion [(t, x)] is still to be considered. *)
Record vinv (E : St D → Z → Op D → Prop) (v : view) : Prop := {
  vi_p i a : v_ns v !! i = Some a → n_p D a = h (n_state D a) ∧ 0 ≤ n_g D a;
  vi_root : ∃ a, v_ns v !! 0%nat = Some a ∧ n_parent D a = None;
  vi_noroot i a : v_ns v !! i = Some a → n_parent D a = None →
    i = 0%nat ∧ n_state D a = s0 ∧ n_g D a = 0 ∧ n_pop D a = nop;
  vi_par i a p : v_ns v !! i = Some a → n_parent D a = Some p →
    ∃ b x, v_ns v !! p = Some b ∧ n_op D a ∈ ops (n_state D b) ∧
      n_state D a = dest (n_state D b) (n_op D a) ∧
      n_pop D a = revop (n_state D b) (n_op D a) ∧
      n_g D b + cost (n_state D b) (n_op D a) ≤ n_g D a ∧
      (n_state D b, x) ∈ v_X v ∧ x + cost (n_state D b) (n_op D a) ≤ n_g D a;
  vi_chain i a : v_ns v !! i = Some a → ∃ l, chain (v_ns v) i l;
  vi_op i : i ∈ v_op v → is_Some (v_ns v !! i);
  vi_opnd : NoDup (v_op v);
  vi_cl i : i ∈ v_cl v → is_Some (v_ns v !! i);
  vi_clinj i j a b : i ∈ v_cl v → j ∈ v_cl v → v_ns v !! i = Some a → v_ns v !! j = Some b →
    n_state D a = n_state D b → i = j;
  vi_clnd : NoDup (v_cl v);
  vi_in i : i ∈ v_in v → i ∈ v_cl v;
  vi_innd : NoDup (v_in v);
  vi_inop i : i ∈ v_in v → i ∉ v_op v;
  vi_done i a : i ∈ v_cl v → ¬ live v i → v_ns v !! i = Some a → (n_state D a, n_g D a) ∈ v_X v;
  vi_goal t x : (t, x) ∈ v_X v → isgoal t = true → ∃ c, v_c v = Some c ∧ c ≤ x;
  vi_cov t x op : (t, x) ∈ v_X v → op ∈ ops t → ¬ E t x op → cov v (dest t op) (x + cost t op);
  vi_base : cov v s0 0;
  vi_X t x : (t, x) ∈ v_X v → reachable s0 t;
}.

Record winv (w : Z) (E : St D → Z → Op D → Prop) (v : view) : Prop := {
  wi_cl i a u : i ∈ v_cl v → i ∉ v_op v → v_ns v !! i = Some a → wto s0 (n_state D a) u → wdone w v (n_state D a) u;
  wi_succ t x u op : (t, x) ∈ v_X v → wto s0 t u → wd * x ≤ w * u → op ∈ ops t → ¬ E t x op →
    wopen w v (dest t op) (u + cost t op) ∨ wdone w v (dest t op) (u + cost t op);
  wi_base : wopen w v s0 0 ∨ wdone w v s0 0;
}.

(** ** What follows from the invariants *)

Lemma wto_nonneg t u : wto s0 t u → 0 ≤ u.
Proof. induction 1; [done|]. pose proof (ok_cost OK _ _ H0). lia. Qed.

Lemma cov_weaken v t u u' : cov v t u → u ≤ u' → cov v t u'.
Proof.
  intros [(i & a & Hl & Ha & Hs & Hg)|[(x & Hx & HX)|(c & Hc & Hle)]] Hu.
  - left. exists i, a. split_and!; try done. lia.
  - right. left. exists x. split; [lia|done].
  - right. right. exists c. split; [done|lia].
Qed.

Lemma cov_solution v E t u ss os k g : vinv E v → (∀ t x op, ¬ E t x op) → admissible h →
  cov v t u → walk ss os k → head ss = Some t → last ss = Some g → isgoal g = true →
  (∃ i a, live v i ∧ v_ns v !! i = Some a ∧ n_g D a + n_p D a ≤ u + k) ∨ (∃ c, v_c v = Some c ∧ c ≤ u + k).
Proof.
  intros Hv HE Hadm Hcov Hw. revert t u Hcov. induction Hw as [s1|s1 o ss os k Ho Hw IH]; intros t u Hcov Hhd Hl Hg;
    simpl in Hhd; injection Hhd as <-.
  - injection Hl as <-. assert (h s1 ≤ 0) as H0.
    { apply (Hadm s1 [s1] []). split; [constructor|]. split; [done|]. by exists s1. }
    destruct Hcov as [(i & a & Hli & Ha & Hs & Hga)|[(x & Hx & HX)|(c & Hc & Hle)]].
    + left. exists i, a. split; [done|]. split; [done|]. destruct (vi_p _ _ Hv _ _ Ha) as [-> _]. rewrite Hs. lia.
    + right. destruct (vi_goal _ _ Hv _ _ HX Hg) as (c & Hc & Hle). exists c. split; [done|lia].
    + right. exists c. split; [done|lia].
  - assert (h s1 ≤ cost s1 o + k) as H0.
    { apply (Hadm s1 (s1 :: dest s1 o :: ss) (o :: os)). split; [by constructor|]. split; [done|]. by exists g. }
    destruct Hcov as [(i & a & Hli & Ha & Hs & Hga)|[(x & Hx & HX)|(c & Hc & Hle)]].
    + left. exists i, a. split; [done|]. split; [done|]. destruct (vi_p _ _ Hv _ _ Ha) as [-> _]. rewrite Hs. lia.
    + replace (u + (cost s1 o + k)) with (u + cost s1 o + k) by lia.
      apply (IH (dest s1 o)); [|done|exact Hl|done].
      eapply cov_weaken; [by eapply (vi_cov _ _ Hv)|]. lia.
    + right. exists c. split; [done|lia].
Qed.

Lemma live_solution v E ss os k : vinv E v → (∀ t x op, ¬ E t x op) → admissible h →
  solution s0 ss os k →
  (∃ i a, live v i ∧ v_ns v !! i = Some a ∧ n_g D a + n_p D a ≤ k) ∨ (∃ c, v_c v = Some c ∧ c ≤ k).
Proof.
  intros Hv HE Hadm (Hw & Hhd & g & Hl & Hg).
  apply (cov_solution v E s0 0 ss os k g Hv HE Hadm (vi_base _ _ Hv) Hw Hhd Hl Hg).
Qed.

Lemma wopen_bound w v E t u t' u' : vinv E v → 0 ≤ w → consistent h →
  (u' - u >= 0) → h t ≤ (u' - u) + h t' → wopen w v t u →
  ∃ i a, i ∈ v_op v ∧ v_ns v !! i = Some a ∧ wd * n_g D a + w * n_p D a ≤ w * (u' + h t').
Proof.
  intros Hv Hw Hc Hu Hht (i & a & Hi & Ha & Hs & Hg). exists i, a. split; [done|]. split; [done|].
  destruct (vi_p _ _ Hv _ _ Ha) as [-> _]. rewrite Hs. nia.
Qed.

Lemma frontier w v E : vinv E v → winv w E v → (∀ t x op, ¬ E t x op) → consistent h → wd ≤ w →
  ∀ t u, wto s0 t u →
  (∃ i a, i ∈ v_op v ∧ v_ns v !! i = Some a ∧ wd * n_g D a + w * n_p D a ≤ w * (u + h t)) ∨ wdone w v t u.
Proof.
  intros Hv Hwi HE Hcons Hw. induction 1 as [|t u op Hto IH Hop].
  - destruct (wi_base _ _ _ Hwi) as [Ho|Hd]; [left|by right].
    apply (wopen_bound w v E s0 0); [done|lia|done|lia|lia|done].
  - pose proof (proj2 Hcons _ _ Hop) as Hc1. pose proof (ok_cost OK _ _ Hop) as Hc0.
    destruct IH as [(i & a & Hi & Ha & Hle)|[(x & Hx & HX)|(c & Hc & Hle)]].
    + left. exists i, a. split; [done|]. split; [done|]. nia.
    + destruct (wi_succ _ _ _ Hwi t x u op) as [Ho|Hd]; [done..|apply HE| |by right].
      left. apply (wopen_bound w v E (dest t op) (u + cost t op)); [done|lia|done|lia|lia|done].
    + right. right. exists c. split; [done|]. nia.
Qed.

(** ** Considering a successor *)

(** [n] (with contents [pn]) is being expanded, its successor by [op] is considered. *)
Inductive kid (v : view) (n : nat) (pn : node) (op : Op D) : view → Prop :=
  | kid_old d dn :
      d ∈ v_cl v → v_ns v !! d = Some dn → n_state D dn = dest (n_state D pn) op →
      n_g D dn ≤ n_g D pn + cost (n_state D pn) op →
      kid v n pn op v
  | kid_better d dn g o' i' :
      d ∈ v_cl v → v_ns v !! d = Some dn → n_state D dn = dest (n_state D pn) op →
      g = n_g D pn + cost (n_state D pn) op → g < n_g D dn →
      o' ≡ₚ v_op v →
      (d ∈ v_op v ∧ i' = v_in v ∨ d ∉ v_op v ∧ d ∈ v_in v ∧ i' = v_in v ∨ d ∉ v_op v ∧ d ∉ v_in v ∧ i' = v_in v ++ [d]) →
      kid v n pn op (View
        (<[d := Node D (Some n) (n_state D dn) op (revop (n_state D pn) op) g (n_p D dn)]> (v_ns v)) o' i' (v_cl v) (v_c v) (v_X v))
  | kid_new g o' :
      (∀ i a, i ∈ v_cl v → v_ns v !! i = Some a → n_state D a ≠ dest (n_state D pn) op) →
      g = n_g D pn + cost (n_state D pn) op →
      o' ≡ₚ length (v_ns v) :: v_op v →
      kid v n pn op (View
        (v_ns v ++ [Node D (Some n) (dest (n_state D pn) op) op (revop (n_state D pn) op) g (h (dest (n_state D pn) op))])
        o' (v_in v) (length (v_ns v) :: v_cl v) (v_c v) (v_X v)).

(** What it keeps. *)
Record grow (v v' : view) : Prop := {
  gr_ns i a : v_ns v !! i = Some a → ∃ b, v_ns v' !! i = Some b ∧ n_state D b = n_state D a ∧ n_g D b ≤ n_g D a;
  gr_op i : i ∈ v_op v → i ∈ v_op v';
  gr_live i : live v i → live v' i;
  gr_X : v_X v' = v_X v;
  gr_c : v_c v' = v_c v;
}.
Lemma grow_refl v : grow v v.
Proof. split; try done. intros i a Ha. exists a. split_and!; [done..|lia]. Qed.
Lemma grow_trans v1 v2 v3 : grow v1 v2 → grow v2 v3 → grow v1 v3.
Proof.
  intros [A1 A2 A3 A4 A5] [B1 B2 B3 B4 B5]. split; [|eauto|eauto|congruence..].
  intros i a Ha. destruct (A1 _ _ Ha) as (b & Hb & Hs & Hg). destruct (B1 _ _ Hb) as (b' & Hb' & Hs' & Hg').
  exists b'. split; [done|]. split; [congruence|lia].
Qed.

Lemma grow_cov v v' t u : grow v v' → cov v t u → cov v' t u.
Proof.
  intros [Hn Ho Hl HX Hc] [(i & a & Hli & Ha & Hs & Hg)|[Hx|Hx]].
  - left. destruct (Hn _ _ Ha) as (b & Hb & Hs' & Hg'). exists i, b. split_and!; [by apply Hl|done|congruence|lia].
  - right. left. by rewrite HX.
  - right. right. by rewrite Hc.
Qed.
Lemma grow_wopen w v v' t u : grow v v' → wopen w v t u → wopen w v' t u.
Proof.
  intros [Hn Ho Hl HX Hc] (i & a & Hi & Ha & Hs & Hg). destruct (Hn _ _ Ha) as (b & Hb & Hs' & Hg').
  exists i, b. split_and!; [by apply Ho|done|congruence|nia].
Qed.
Lemma grow_wdone w v v' t u : grow v v' → wdone w v t u → wdone w v' t u.
Proof. intros [Hn Ho Hl HX Hc]. unfold wdone. by rewrite HX, Hc. Qed.

Lemma kid_grow v n pn op v' : kid v n pn op v' → grow v v'.
Proof.
  intros [d dn Hcl Hd Hs Hg|d dn g o' i' Hcl Hd Hs Hg Hlt Ho Hi|g o' Hf Hg Ho]; [apply grow_refl|..].
  - split; simpl; [| | |done..].
    + intros i a Ha. destruct (decide (i = d)) as [->|Hne].
      * simplify_eq. eexists. split; [apply list_lookup_insert; by eapply lookup_lt_Some|]. simpl. split; [done|lia].
      * exists a. rewrite list_lookup_insert_ne by done. split; [done|]. split; [done|lia].
    + intros i. by rewrite Ho.
    + intros i [Hl|Hl]; [left; simpl; by rewrite Ho|right]. simpl.
      destruct Hi as [[_ ->]|[(_ & _ & ->)|(_ & _ & ->)]]; [done..|]. apply elem_of_app. by left.
  - split; simpl; [| | |done..].
    + intros i a Ha. exists a. split; [by apply lookup_app_l_Some|]. split; [done|lia].
    + intros i Hi. rewrite Ho. by right.
    + intros i [Hl|Hl]; [left; simpl; rewrite Ho; by right|by right].
Qed.

(** The successor is taken care of. *)
Lemma kid_cov v n pn op v' E : vinv E v → kid v n pn op v' →
  cov v' (dest (n_state D pn) op) (n_g D pn + cost (n_state D pn) op).
Proof.
  intros Hv [d dn Hcl Hd Hs Hg|d dn g o' i' Hcl Hd Hs Hg Hlt Ho Hi|g o' Hf Hg Ho].
  - destruct (decide (d ∈ v_op v ∨ d ∈ v_in v)) as [Hl|Hl].
    + left. exists d, dn. done.
    + right. left. exists (n_g D dn). split; [done|]. rewrite <-Hs. by eapply (vi_done _ _ Hv).
  - left. eexists d, _. split_and!; simpl.
    + destruct Hi as [[Hi _]|[(_ & Hi & ->)|(_ & _ & ->)]]; [left; simpl; by rewrite Ho|by right|right; simpl; set_solver].
    + apply list_lookup_insert. by eapply lookup_lt_Some.
    + done.
    + simpl. lia.
  - left. eexists (length (v_ns v)), _. split_and!; simpl.
    + left. simpl. rewrite Ho. left.
    + by apply list_lookup_middle.
    + done.
    + simpl. lia.
Qed.
Lemma kid_wcov w v n pn op v' E u : vinv E v → winv w E v → wd ≤ w → kid v n pn op v' →
  op ∈ ops (n_state D pn) → wto s0 (n_state D pn) u → wd * n_g D pn ≤ w * u →
  wopen w v' (dest (n_state D pn) op) (u + cost (n_state D pn) op) ∨ wdone w v' (dest (n_state D pn) op) (u + cost (n_state D pn) op).
Proof.
  intros Hv Hwi Hw Hk Hop Hto Hle. pose proof (ok_cost OK _ _ Hop) as Hc0.
  assert (Hto' : wto s0 (dest (n_state D pn) op) (u + cost (n_state D pn) op)) by by constructor.
  destruct Hk as [d dn Hcl Hd Hs Hg|d dn g o' i' Hcl Hd Hs Hg Hlt Ho Hi|g o' Hf Hg Ho].
  - destruct (decide (d ∈ v_op v)) as [Hl|Hl].
    + left. exists d, dn. split_and!; try done. nia.
    + right. rewrite <-Hs in *. by eapply (wi_cl _ _ _ Hwi d dn).
  - destruct (decide (d ∈ v_op v)) as [Hl|Hl].
    + left. eexists d, _. simpl. split_and!; [by rewrite Ho|apply list_lookup_insert; by eapply lookup_lt_Some|done|]. simpl. nia.
    + right. rewrite <-Hs in *. pose proof (wi_cl _ _ _ Hwi d dn _ Hcl Hl Hd Hto') as Hx. exact Hx.
  - left. eexists (length (v_ns v)), _. simpl. split_and!; [rewrite Ho; left|by apply list_lookup_middle|done|]. simpl. nia.
Qed.

Lemma chain_g v E i l a j b :
  vinv E v → chain (v_ns v) i l → v_ns v !! i = Some a → j ∈ l → v_ns v !! j = Some b → n_g D b ≤ n_g D a.
Proof.
  intros Hv Hc. revert a. induction Hc as [i a' Ha' Hp|i a' p l Ha' Hp Hc IH]; intros a Ha Hj Hb.
  - apply elem_of_list_singleton in Hj as ->. simplify_eq. lia.
  - apply elem_of_cons in Hj as [->|Hj]; [simplify_eq; lia|].
    simplify_eq. destruct (vi_par _ _ Hv _ _ _ Ha' Hp) as (b' & x & Hb' & Hop & _ & _ & Hle & _).
    specialize (IH _ Hb' Hj Hb). pose proof (ok_cost OK _ _ Hop). lia.
Qed.

(** The node being expanded is not touched by its own kids. *)
Lemma kid_self v n pn op v' :
  v_ns v !! n = Some pn → n ∉ v_op v → op ∈ ops (n_state D pn) →
  kid v n pn op v' → v_ns v' !! n = Some pn ∧ n ∉ v_op v' ∧ v_X v' = v_X v.
Proof.
  intros Hn Hc Hop Hk. pose proof (ok_cost OK _ _ Hop).
  destruct Hk as [d dn Hcl Hd Hs Hg|d dn g o' i' Hcl Hd Hs Hg Hlt Ho Hi|g o' Hf Hg Ho]; simpl.
  - done.
  - assert (d ≠ n) by (intros ->; simplify_eq; lia).
    rewrite list_lookup_insert_ne by done. by rewrite Ho.
  - split; [by apply lookup_app_l_Some|]. rewrite Ho. split; [|done]. intros [->|?]%elem_of_cons; [|done].
    apply lookup_lt_Some in Hn. lia.
Qed.

Lemma kid_vinv E v n pn op v' :
  vinv E v → v_ns v !! n = Some pn → op ∈ ops (n_state D pn) → (n_state D pn, n_g D pn) ∈ v_X v →
  kid v n pn op v' → vinv E v'.
Proof.
  intros Hv Hn Hop HnX Hk. pose proof (ok_cost OK _ _ Hop) as Hcost. pose proof (kid_grow _ _ _ _ _ Hk) as Hgr.
  destruct (vi_p _ _ Hv _ _ Hn) as [_ Hg0]. destruct (vi_chain _ _ Hv _ _ Hn) as [ln Hln].
  assert (Hrn : reachable s0 (n_state D pn)) by by eapply (vi_X _ _ Hv).
  destruct Hk as [d dn Hcl Hd Hs Hg|d dn g o' i' Hcl Hd Hs Hg Hlt Ho Hi|g o' Hf Hg Ho]; [done| |].
  - assert (d < length (v_ns v))%nat as Hdl by by eapply lookup_lt_Some.
    set (a' := Node D (Some n) (n_state D dn) op (revop (n_state D pn) op) g (n_p D dn)) in *.
    assert (d ∉ ln) as Hdn.
    { intros Hin. pose proof (chain_g _ _ _ _ _ _ _ Hv Hln Hn Hin Hd). lia. }
    assert (d ≠ n) as Hne by (intros ->; simplify_eq; lia).
    assert (d ≠ 0%nat) as Hd0.
    { intros ->. destruct (vi_root _ _ Hv) as (r & Hr & Hrp). simplify_eq.
      destruct (vi_noroot _ _ Hv _ _ Hd Hrp) as (_ & _ & Hz & _). lia. }
    assert (∀ i a, <[d := a']> (v_ns v) !! i = Some a →
      (i = d ∧ a = a') ∨ (i ≠ d ∧ v_ns v !! i = Some a)) as Hlk.
    { intros i a. destruct (decide (i = d)) as [->|?].
      - rewrite list_lookup_insert by done. naive_solver.
      - rewrite list_lookup_insert_ne by done. naive_solver. }
    assert (Hsm : ∀ i, is_Some (v_ns v !! i) → is_Some (<[d := a']> (v_ns v) !! i)).
    { intros i Hsi. apply lookup_lt_is_Some. rewrite insert_length. by apply lookup_lt_is_Some. }
    assert (Hst : ∀ i a, <[d := a']> (v_ns v) !! i = Some a → ∃ b, v_ns v !! i = Some b ∧ n_state D b = n_state D a).
    { intros i a Ha. destruct (Hlk _ _ Ha) as [[-> ->]|[_ ?]]; eauto. }
    assert (Hi' : ∀ i, i ∈ i' ↔ i ∈ v_in v ∨ (i = d ∧ d ∉ v_op v)).
    { intros i. destruct Hi as [[Hi ->]|[(Hi & Hi2 & ->)|(Hi & Hi2 & ->)]].
      - split; [by left|]. intros [?|[-> ?]]; done.
      - split; [by left|]. intros [?|[-> ?]]; done.
      - rewrite elem_of_app, elem_of_list_singleton. naive_solver. }
    split; simpl.
    + intros i a Ha. destruct (Hlk _ _ Ha) as [[-> ->]|[? Ha']]; [|by apply (vi_p _ _ Hv i)].
      simpl. split; [by apply (vi_p _ _ Hv d)|lia].
    + destruct (vi_root _ _ Hv) as (r & Hr & Hrp). exists r. by rewrite list_lookup_insert_ne.
    + intros i a Ha Hpa. destruct (Hlk _ _ Ha) as [[-> ->]|[? Ha']]; [done|]. by apply (vi_noroot _ _ Hv).
    + intros i a q Ha Hpa. destruct (Hlk _ _ Ha) as [[-> ->]|[? Ha']].
      * simpl in Hpa. injection Hpa as <-. exists pn, (n_g D pn).
        rewrite list_lookup_insert_ne by done. simpl. split_and!; try done; lia.
      * destruct (vi_par _ _ Hv _ _ _ Ha' Hpa) as (b & x & Hb & Hob & Hsb & Hrb & Hgb & HX & Hxb).
        destruct (decide (q = d)) as [->|].
        -- simplify_eq. exists a', x. rewrite list_lookup_insert by done. simpl. split_and!; try done. lia.
        -- exists b, x. by rewrite list_lookup_insert_ne.
    + intros i a Ha. destruct (Hst _ _ Ha) as (a0 & Ha0 & _).
      destruct (vi_chain _ _ Hv _ _ Ha0) as [l Hl]. by eapply (chain_reparent (v_ns v) d a' n ln).
    + intros i. rewrite Ho. intros Hio. by apply Hsm, (vi_op _ _ Hv).
    + rewrite Ho. apply (vi_opnd _ _ Hv).
    + intros i Hic. by apply Hsm, (vi_cl _ _ Hv).
    + intros i j a b Hic Hjc Ha Hb Hab. destruct (Hst _ _ Ha) as (a0 & Ha0 & Ea), (Hst _ _ Hb) as (b0 & Hb0 & Eb).
      apply (vi_clinj _ _ Hv i j a0 b0); try done. congruence.
    + apply (vi_clnd _ _ Hv).
    + intros i. rewrite Hi'. intros [Hii|[-> _]]; [by apply (vi_in _ _ Hv)|done].
    + destruct Hi as [[_ ->]|[(_ & _ & ->)|(_ & Hnin & ->)]]; [apply (vi_innd _ _ Hv)..|].
      apply NoDup_app. split; [apply (vi_innd _ _ Hv)|]. split; [|apply NoDup_singleton].
      intros x Hx Hx'. apply elem_of_list_singleton in Hx' as ->. done.
    + intros i. rewrite Hi', Ho. intros [Hii|[-> ?]]; [by apply (vi_inop _ _ Hv)|done].
    + intros i a Hic Hnl Ha. destruct (Hlk _ _ Ha) as [[-> ->]|[? Ha']].
      * exfalso. apply Hnl. destruct (decide (d ∈ v_op v)); [left; simpl; by rewrite Ho|right; simpl; rewrite Hi'; by right].
      * apply (vi_done _ _ Hv i); [done| |done]. intros Hlv. by apply Hnl, (gr_live _ _ Hgr).
    + apply (vi_goal _ _ Hv).
    + intros t x op' HX Hop' HE. eapply grow_cov; [exact Hgr|]. by apply (vi_cov _ _ Hv).
    + eapply grow_cov; [exact Hgr|]. apply (vi_base _ _ Hv).
    + apply (vi_X _ _ Hv).
  - set (a' := Node D (Some n) (dest (n_state D pn) op) op (revop (n_state D pn) op) g (h (dest (n_state D pn) op))) in *.
    assert (∀ i a, (v_ns v ++ [a']) !! i = Some a →
      (i = length (v_ns v) ∧ a = a') ∨ (v_ns v !! i = Some a)) as Hlk.
    { intros i a Ha. apply lookup_app_Some in Ha as [Ha|[Hl Ha]]; [by right|left].
      apply list_lookup_singleton_Some in Ha as [? <-]. split; [lia|done]. }
    assert (Hsm : ∀ i, is_Some (v_ns v !! i) → is_Some ((v_ns v ++ [a']) !! i)).
    { intros i [b Hb]. exists b. by apply lookup_app_l_Some. }
    assert (Hfo : length (v_ns v) ∉ v_op v).
    { intros [b Hb]%(vi_op _ _ Hv). apply lookup_lt_Some in Hb. lia. }
    assert (Hfc : length (v_ns v) ∉ v_cl v).
    { intros [b Hb]%(vi_cl _ _ Hv). apply lookup_lt_Some in Hb. lia. }
    assert (Hold : ∀ i a, (v_ns v ++ [a']) !! i = Some a → i ≠ length (v_ns v) → v_ns v !! i = Some a).
    { intros i a Ha Hne. by destruct (Hlk _ _ Ha) as [[-> _]|?]. }
    split; simpl.
    + intros i a Ha. destruct (Hlk _ _ Ha) as [[-> ->]|Ha']; [|by apply (vi_p _ _ Hv i)].
      simpl. split; [done|lia].
    + destruct (vi_root _ _ Hv) as (r & Hr & Hrp). exists r. split; [|done]. by apply lookup_app_l_Some.
    + intros i a Ha Hpa. destruct (Hlk _ _ Ha) as [[-> ->]|Ha']; [done|]. by apply (vi_noroot _ _ Hv).
    + intros i a q Ha Hpa. destruct (Hlk _ _ Ha) as [[-> ->]|Ha'].
      * simpl in Hpa. injection Hpa as <-. exists pn, (n_g D pn). simpl.
        split_and!; [by apply lookup_app_l_Some|done|done|done|lia|done|lia].
      * destruct (vi_par _ _ Hv _ _ _ Ha' Hpa) as (b & x & Hb & Hob & Hsb & Hrb & Hgb & HX & Hxb).
        exists b, x. split; [by apply lookup_app_l_Some|done].
    + intros i a Ha. destruct (Hlk _ _ Ha) as [[-> ->]|Ha'].
      * exists (length (v_ns v) :: ln). eapply chain_step; [exact Ha|done|]. by apply chain_app.
      * destruct (vi_chain _ _ Hv _ _ Ha') as [l Hl]. exists l. by apply chain_app.
    + intros i. rewrite Ho. intros [->|Hio]%elem_of_cons; [eexists; by apply list_lookup_middle|]. by apply Hsm, (vi_op _ _ Hv).
    + rewrite Ho. apply NoDup_cons. split; [done|apply (vi_opnd _ _ Hv)].
    + intros i [->|Hic]%elem_of_cons; [eexists; by apply list_lookup_middle|]. by apply Hsm, (vi_cl _ _ Hv).
    + intros i j a b [->|Hic]%elem_of_cons [->|Hjc]%elem_of_cons Ha Hb Hab; [done|..].
      * assert (Hb' : v_ns v !! j = Some b) by (apply Hold; [done|set_solver]).
        rewrite (list_lookup_middle (v_ns v) [] a') in Ha by done. injection Ha as <-. by destruct (Hf j b).
      * assert (Ha' : v_ns v !! i = Some a) by (apply Hold; [done|set_solver]).
        rewrite (list_lookup_middle (v_ns v) [] a') in Hb by done. injection Hb as <-. by destruct (Hf i a).
      * apply (vi_clinj _ _ Hv i j a b); try done; (apply Hold; [done|set_solver]).
    + apply NoDup_cons. split; [done|apply (vi_clnd _ _ Hv)].
    + intros i Hii. right. by apply (vi_in _ _ Hv).
    + apply (vi_innd _ _ Hv).
    + intros i Hii. rewrite Ho. intros [->|Hio]%elem_of_cons; [by apply (vi_in _ _ Hv) in Hii|by eapply (vi_inop _ _ Hv)].
    + intros i a [->|Hic]%elem_of_cons Hnl Ha.
      * exfalso. apply Hnl. left. simpl. rewrite Ho. left.
      * apply (vi_done _ _ Hv i); [done| |apply Hold; [done|set_solver]]. intros Hlv. by apply Hnl, (gr_live _ _ Hgr).
    + apply (vi_goal _ _ Hv).
    + intros t x op' HX Hop' HE. eapply grow_cov; [exact Hgr|]. by apply (vi_cov _ _ Hv).
    + eapply grow_cov; [exact Hgr|]. apply (vi_base _ _ Hv).
    + apply (vi_X _ _ Hv).
Qed.

Lemma kid_winv w E v n pn op v' : vinv E v → winv w E v → kid v n pn op v' → winv w E v'.
Proof.
  intros Hv Hwi Hk. pose proof (kid_grow _ _ _ _ _ Hk) as Hgr. split.
  - intros i a u Hic Hio Ha Hto.
    assert (Hx : i ∈ v_cl v ∧ i ∉ v_op v ∧ ∃ b, v_ns v !! i = Some b ∧ n_state D b = n_state D a).
    { destruct Hk as [d dn Hcl Hd Hs Hg|d dn g o' i' Hcl Hd Hs Hg Hlt Ho Hi|g o' Hf Hg Ho]; simpl in *.
      - split_and!; [done..|eauto].
      - rewrite Ho in Hio. split_and!; [done..|]. destruct (decide (i = d)) as [->|Hne].
        + rewrite list_lookup_insert in Ha by (by eapply lookup_lt_Some). simplify_eq. eauto.
        + rewrite list_lookup_insert_ne in Ha by done. eauto.
      - rewrite Ho in Hio. apply not_elem_of_cons in Hio as [Hne Hio]. apply elem_of_cons in Hic as [->|Hic]; [done|].
        split_and!; [done..|]. apply lookup_app_Some in Ha as [Ha|[Hl Ha]]; [eauto|].
        apply list_lookup_singleton_Some in Ha as [? _]. lia. }
    destruct Hx as (Hic' & Hio' & b & Hb & Hs). rewrite <-Hs in *.
    eapply grow_wdone; [exact Hgr|]. by apply (wi_cl _ _ _ Hwi i).
  - intros t x u op' HX Hto Hle Hop' HE. rewrite (gr_X _ _ Hgr) in HX.
    destruct (wi_succ _ _ _ Hwi t x u op') as [Ho|Hd]; [done..|left; by eapply grow_wopen|right; by eapply grow_wdone].
  - destruct (wi_base _ _ _ Hwi) as [Ho|Hd]; [left; by eapply grow_wopen|right; by eapply grow_wdone].
Qed.

(** ** Removing the best node of the open list *)

Definition todo (t0 : St D) (x0 : Z) (os : list (Op D)) (t : St D) (x : Z) (op : Op D) : Prop :=
  t = t0 ∧ x = x0 ∧ op ∈ os.
Definition none (t : St D) (x : Z) (op : Op D) : Prop := False.
Lemma none_not t x op : ¬ none t x op.
Proof. by intros []. Qed.

(** [pops v n pn v']: node [n] leaves the open list; if it is a goal it becomes the incumbent. *)
Record pops (v : view) (n : nat) (pn : node) (v' : view) : Prop := {
  po_n : v_ns v !! n = Some pn;
  po_op : v_op v ≡ₚ n :: v_op v';
  po_ns : v_ns v' = v_ns v;
  po_in : v_in v' = v_in v;
  po_cl : v_cl v' = v_cl v;
  po_c : v_c v' = if isgoal (n_state D pn) then Some (n_g D pn) else v_c v;
  po_lt : ∀ c, v_c v = Some c → n_g D pn < c;
  po_X : v_X v' = (n_state D pn, n_g D pn) :: v_X v;
}.

Lemma pops_cost v n pn v' c : pops v n pn v' → v_c v = Some c → ∃ c', v_c v' = Some c' ∧ c' ≤ c.
Proof.
  intros Hp Hc. rewrite (po_c _ _ _ _ Hp). destruct (isgoal _); [|exists c; split; [done|lia]].
  exists (n_g D pn). split; [done|]. pose proof (po_lt _ _ _ _ Hp _ Hc). lia.
Qed.

Lemma pops_live v n pn v' i : pops v n pn v' → live v i → i = n ∨ live v' i.
Proof.
  intros Hp [Hi|Hi].
  - rewrite (po_op _ _ _ _ Hp) in Hi. apply elem_of_cons in Hi as [->|Hi]; [by left|right; by left].
  - right. right. by rewrite (po_in _ _ _ _ Hp).
Qed.

Lemma pops_cov v n pn v' t u : pops v n pn v' → cov v t u → cov v' t u.
Proof.
  intros Hp [(i & a & Hl & Ha & Hs & Hg)|[(x & Hx & HX)|(c & Hc & Hle)]].
  - destruct (pops_live _ _ _ _ _ Hp Hl) as [->|Hl'].
    + right. left. exists (n_g D a). split; [done|]. rewrite (po_X _ _ _ _ Hp), <-Hs.
      rewrite (po_n _ _ _ _ Hp) in Ha. injection Ha as <-. left.
    + left. exists i, a. by rewrite (po_ns _ _ _ _ Hp).
  - right. left. exists x. split; [done|]. rewrite (po_X _ _ _ _ Hp). by right.
  - right. right. destruct (pops_cost _ _ _ _ _ Hp Hc) as (c' & Hc' & Hle'). exists c'. split; [done|lia].
Qed.

Lemma pops_wdone w v n pn v' t u : 0 ≤ w → pops v n pn v' → wdone w v t u → wdone w v' t u.
Proof.
  intros Hw Hp [(x & Hx & HX)|(c & Hc & Hle)].
  - left. exists x. split; [done|]. rewrite (po_X _ _ _ _ Hp). by right.
  - right. destruct (pops_cost _ _ _ _ _ Hp Hc) as (c' & Hc' & Hle'). exists c'. split; [done|nia].
Qed.

Lemma pops_wopen w v n pn v' t u : 0 ≤ w → pops v n pn v' → wopen w v t u → wopen w v' t u ∨ wdone w v' t u.
Proof.
  intros Hw Hp (i & a & Hi & Ha & Hs & Hg). rewrite (po_op _ _ _ _ Hp) in Hi. apply elem_of_cons in Hi as [->|Hi].
  - right. left. exists (n_g D a). split; [done|]. rewrite (po_X _ _ _ _ Hp), <-Hs.
    rewrite (po_n _ _ _ _ Hp) in Ha. injection Ha as <-. left.
  - left. exists i, a. by rewrite (po_ns _ _ _ _ Hp).
Qed.

Lemma chain_solpath v E i l fuel a :
  vinv E v → chain (v_ns v) i l → v_ns v !! i = Some a → (length l ≤ fuel)%nat →
  ∃ path os k, solpath D fuel (v_ns v) i = Some (path, os) ∧
    walk (reverse path) (reverse os) k ∧ head (reverse path) = Some s0 ∧
    last (reverse path) = Some (n_state D a) ∧ k ≤ n_g D a.
Proof.
  intros Hinv Hc. revert fuel a.
  induction Hc as [i b Hb Hp|i b p l Hb Hp Hc IH]; intros fuel a Ha Hlen;
    rewrite Ha in Hb; injection Hb as <-.
  - destruct fuel as [|fuel]; [simpl in Hlen; lia|]. simpl. rewrite Ha. cbn [mbind option_bind].
    rewrite Hp. destruct (vi_noroot _ _ Hinv _ _ Ha Hp) as (_ & Hs & Hg & _).
    eexists _, _, 0. split_and!; [done|constructor|simpl; congruence|done|lia].
  - destruct fuel as [|fuel]; [simpl in Hlen; lia|]. simpl. rewrite Ha. cbn [mbind option_bind].
    rewrite Hp. destruct (vi_par _ _ Hinv _ _ _ Ha Hp) as (b & x & Hb & Hob & Hsb & Hrb & Hgb & _).
    destruct (IH fuel b Hb) as (path & os & k & -> & Hw & Hh' & Hl & Hk).
    { simpl in Hlen. lia. }
    cbn [mbind option_bind]. eexists _, _, _. split; [done|]. rewrite !reverse_cons. split_and!.
    + rewrite Hsb. by eapply walk_snoc.
    + destruct (reverse path); [done|]. done.
    + by rewrite last_snoc.
    + lia.
Qed.

Lemma node_reachable v E i a : vinv E v → v_ns v !! i = Some a → reachable s0 (n_state D a).
Proof.
  intros Hinv Ha. destruct (vi_chain _ _ Hinv _ _ Ha) as [l Hl].
  destruct (chain_solpath _ _ _ _ (length l) _ Hinv Hl Ha (le_n _)) as (path & os & k & _ & Hw & Hh' & Hl' & _).
  by exists (reverse path), (reverse os), k.
Qed.

Lemma pops_vinv v n pn v' : vinv none v → pops v n pn v' →
  vinv (todo (n_state D pn) (n_g D pn) (ops (n_state D pn))) v'.
Proof.
  intros Hv Hp. pose proof (po_n _ _ _ _ Hp) as Hn.
  pose proof (vi_opnd _ _ Hv) as Hnd. rewrite (po_op _ _ _ _ Hp) in Hnd. apply NoDup_cons in Hnd as [Hnin Hnd].
  split.
  - rewrite (po_ns _ _ _ _ Hp). apply (vi_p _ _ Hv).
  - rewrite (po_ns _ _ _ _ Hp). apply (vi_root _ _ Hv).
  - rewrite (po_ns _ _ _ _ Hp). apply (vi_noroot _ _ Hv).
  - rewrite (po_ns _ _ _ _ Hp), (po_X _ _ _ _ Hp). intros i a p Ha Hpa.
    destruct (vi_par _ _ Hv _ _ _ Ha Hpa) as (b & x & Hb & H1 & H2 & H3 & H4 & H5 & H6).
    exists b, x. split_and!; try done. by right.
  - rewrite (po_ns _ _ _ _ Hp). apply (vi_chain _ _ Hv).
  - intros i Hi. rewrite (po_ns _ _ _ _ Hp). apply (vi_op _ _ Hv). rewrite (po_op _ _ _ _ Hp). by right.
  - done.
  - rewrite (po_ns _ _ _ _ Hp), (po_cl _ _ _ _ Hp). apply (vi_cl _ _ Hv).
  - rewrite (po_ns _ _ _ _ Hp), (po_cl _ _ _ _ Hp). apply (vi_clinj _ _ Hv).
  - rewrite (po_cl _ _ _ _ Hp). apply (vi_clnd _ _ Hv).
  - rewrite (po_cl _ _ _ _ Hp), (po_in _ _ _ _ Hp). apply (vi_in _ _ Hv).
  - rewrite (po_in _ _ _ _ Hp). apply (vi_innd _ _ Hv).
  - rewrite (po_in _ _ _ _ Hp). intros i Hi Hi'. apply (vi_inop _ _ Hv i Hi). rewrite (po_op _ _ _ _ Hp). by right.
  - rewrite (po_cl _ _ _ _ Hp), (po_ns _ _ _ _ Hp), (po_X _ _ _ _ Hp). intros i a Hic Hnl Ha.
    destruct (decide (i = n)) as [->|Hne]; [simplify_eq; left|]. right.
    apply (vi_done _ _ Hv i); [done| |done]. intros Hl. by destruct (pops_live _ _ _ _ _ Hp Hl).
  - rewrite (po_X _ _ _ _ Hp). intros t x [Heq|HX]%elem_of_cons Hg.
    + injection Heq as -> ->. rewrite (po_c _ _ _ _ Hp), Hg. eexists. split; [done|lia].
    + destruct (vi_goal _ _ Hv _ _ HX Hg) as (c & Hc & Hle).
      destruct (pops_cost _ _ _ _ _ Hp Hc) as (c' & Hc' & Hle'). exists c'. split; [done|lia].
  - rewrite (po_X _ _ _ _ Hp). intros t x op [Heq|HX]%elem_of_cons Hop HE.
    + injection Heq as -> ->. by destruct HE.
    + eapply pops_cov; [done|]. apply (vi_cov _ _ Hv); [done|done|apply none_not].
  - eapply pops_cov; [done|]. apply (vi_base _ _ Hv).
  - rewrite (po_X _ _ _ _ Hp). intros t x [Heq|HX]%elem_of_cons; [|by apply (vi_X _ _ Hv _ _ HX)].
    injection Heq as -> ->. by eapply node_reachable.
Qed.

(** [n] has a least key. *)
Definition least (w : Z) (v : view) (n : nat) (pn : node) : Prop :=
  ∀ i a, i ∈ v_op v → v_ns v !! i = Some a → wd * n_g D pn + w * n_p D pn ≤ wd * n_g D a + w * n_p D a.

Lemma pops_winv w v n pn v' : vinv none v → winv w none v → consistent h → wd ≤ w →
  pops v n pn v' → least w v n pn →
  winv w (todo (n_state D pn) (n_g D pn) (ops (n_state D pn))) v'.
Proof.
  intros Hv Hwi Hcons Hw Hp Hle. pose proof (po_n _ _ _ _ Hp) as Hn. split.
  - rewrite (po_cl _ _ _ _ Hp), (po_ns _ _ _ _ Hp). intros i a u Hic Hio Ha Hto.
    destruct (decide (i = n)) as [->|Hne].
    + rewrite Hn in Ha. injection Ha as <-.
      destruct (frontier w v none Hv Hwi (λ _ _ _ H, H) Hcons Hw _ _ Hto) as [(j & b & Hj & Hb & Hk)|Hd].
      * left. exists (n_g D pn). rewrite (po_X _ _ _ _ Hp). split; [|left].
        pose proof (Hle j b Hj Hb) as Hl. destruct (vi_p _ _ Hv _ _ Hn) as [Hpn _]. rewrite Hpn in Hl. lia.
      * apply (pops_wdone w v n pn); [lia|done|done].
    + apply (pops_wdone w v n pn); [lia|done|]. apply (wi_cl _ _ _ Hwi i); [done| |done|done].
      rewrite (po_op _ _ _ _ Hp). intros [?|?]%elem_of_cons; done.
  - rewrite (po_X _ _ _ _ Hp). intros t x u op [Heq|HX]%elem_of_cons Hto Hxu Hop HE.
    + injection Heq as -> ->. by destruct HE.
    + destruct (wi_succ _ _ _ Hwi t x u op) as [Ho|Hd]; [done..|apply none_not| |].
      * apply (pops_wopen w v n pn); [lia|done|done].
      * right. apply (pops_wdone w v n pn); [lia|done|done].
  - destruct (wi_base _ _ _ Hwi) as [Ho|Hd].
    + apply (pops_wopen w v n pn); [lia|done|done].
    + right. apply (pops_wdone w v n pn); [lia|done|done].
Qed.

(** A goal node that is removed is within the weight of every solution. *)
Lemma pops_bound w v n pn ss os k : vinv none v → winv w none v → consistent h → wd ≤ w →
  v_ns v !! n = Some pn → (∀ c, v_c v = Some c → n_g D pn < c) → least w v n pn →
  solution s0 ss os k → wd * n_g D pn ≤ w * k.
Proof.
  intros Hv Hwi Hcons Hw Hn Hlt Hle (Hwk & Hhd & g & Hl & Hg).
  assert (Hto : wto s0 g k).
  { apply (walk_wto s0 ss os k s0 g 0); [done..|constructor]. }
  pose proof (proj1 Hcons _ Hg) as Hg0. destruct (vi_p _ _ Hv _ _ Hn) as [Hpn _].
  pose proof (Hh (n_state D pn)) as Hh0.
  destruct (frontier w v none Hv Hwi (λ _ _ _ H, H) Hcons Hw _ _ Hto) as [(j & b & Hj & Hb & Hk)|[(x & Hx & HX)|(c & Hc & Hcl)]].
  - pose proof (Hle j b Hj Hb) as Hl'. rewrite Hpn in Hl'. nia.
  - destruct (vi_goal _ _ Hv _ _ HX Hg) as (c & Hc & Hcx). specialize (Hlt _ Hc). nia.
  - specialize (Hlt _ Hc). nia.
Qed.

(** A successor done: by considering it, or by skipping it as the reverse of the last step. *)
Lemma todo_cov t0 x0 op os v : vinv (todo t0 x0 (op :: os)) v →
  cov v (dest t0 op) (x0 + cost t0 op) → vinv (todo t0 x0 os) v.
Proof.
  intros [A1 A2 A3 A4 A5 A6 A7 A8 A9 A10 A11 A12 A13 A14 A15 A16 A17 A18] Hc. split; try done.
  intros t x op' HX Hop' HE. destruct (decide (op' = op)) as [->|Hne].
  - destruct (decide (t = t0)) as [->|Ht]; [|by apply A16; [..|intros (-> & _)]].
    destruct (decide (x = x0)) as [->|Hx]; [done|]. by apply A16; [..|intros (_ & -> & _)].
  - apply A16; [done..|]. intros (-> & -> & [?|Hin]%elem_of_cons); [done|]. by apply HE.
Qed.

Lemma todo_wcov w t0 x0 op os v : winv w (todo t0 x0 (op :: os)) v →
  (∀ u, wto s0 t0 u → wd * x0 ≤ w * u → wopen w v (dest t0 op) (u + cost t0 op) ∨ wdone w v (dest t0 op) (u + cost t0 op)) →
  winv w (todo t0 x0 os) v.
Proof.
  intros [A1 A2 A3] Hc. split; try done.
  intros t x u op' HX Hto Hle Hop' HE. destruct (decide (op' = op)) as [->|Hne].
  - destruct (decide (t = t0)) as [->|Ht]; [|by apply (A2 t x u op); [..|intros (-> & _)]].
    destruct (decide (x = x0)) as [->|Hx]; [by apply Hc|]. by apply (A2 t0 x u op); [..|intros (_ & -> & _)].
  - apply (A2 t x u op'); [done..|]. intros (-> & -> & [?|Hin]%elem_of_cons); [done|]. by apply HE.
Qed.

Lemma skip_X E v n pn op : vinv E v → v_ns v !! n = Some pn → op ∈ ops (n_state D pn) → op = n_pop D pn →
  ∃ x, (dest (n_state D pn) op, x) ∈ v_X v ∧ x ≤ n_g D pn.
Proof.
  intros Hv Hn Hop Heq. destruct (n_parent D pn) as [p|] eqn:Hpar.
  - destruct (vi_par _ _ Hv _ _ _ Hn Hpar) as (b & x & Hb & Hob & Hsb & Hrb & Hgb & HX & Hxb).
    exists x. pose proof (ok_cost OK _ _ Hob). split; [|lia].
    subst op. rewrite Hsb, Hrb. rewrite Hsb, Hrb in Hop. by rewrite (ok_rev OK).
  - destruct (vi_noroot _ _ Hv _ _ Hn Hpar) as (_ & _ & _ & Hpop).
    rewrite Heq, Hpop in Hop. by apply (ok_nop OK) in Hop.
Qed.

(** ** The next iteration *)

(** The open list takes over the inconsistent nodes, some nodes with f >= cost left out; the closed
    list is emptied. *)
Record renew (v v' : view) : Prop := {
  rn_ns : v_ns v' = v_ns v;
  rn_X : v_X v' = v_X v;
  rn_c : v_c v' = v_c v;
  rn_in : v_in v' = [];
  rn_cl : v_cl v' = [];
  rn_nd : NoDup (v_op v');
  rn_sub i : i ∈ v_op v' → live v i;
  rn_sup i a : live v i → v_ns v !! i = Some a →
    i ∈ v_op v' ∨ ∃ c, v_c v = Some c ∧ c ≤ n_g D a + n_p D a;
}.

Lemma renew_cov E v v' t u : vinv E v → renew v v' → cov v t u → cov v' t u.
Proof.
  intros Hv Hr [(i & a & Hl & Ha & Hs & Hg)|[Hx|Hx]].
  - destruct (rn_sup _ _ Hr i a Hl Ha) as [Hi|(c & Hc & Hle)].
    + left. exists i, a. rewrite (rn_ns _ _ Hr). split; [by left|done].
    + right. right. exists c. rewrite (rn_c _ _ Hr). split; [done|].
      destruct (vi_p _ _ Hv _ _ Ha) as [Hp _]. rewrite Hp, Hs in Hle. lia.
  - right. left. by rewrite (rn_X _ _ Hr).
  - right. right. by rewrite (rn_c _ _ Hr).
Qed.

Lemma live_Some E v i : vinv E v → live v i → is_Some (v_ns v !! i).
Proof. intros Hv [Hi|Hi]; [by apply (vi_op _ _ Hv)|by apply (vi_cl _ _ Hv), (vi_in _ _ Hv)]. Qed.

Lemma renew_vinv v v' : vinv none v → renew v v' → vinv none v'.
Proof.
  intros Hv Hr. split.
  - rewrite (rn_ns _ _ Hr). apply (vi_p _ _ Hv).
  - rewrite (rn_ns _ _ Hr). apply (vi_root _ _ Hv).
  - rewrite (rn_ns _ _ Hr). apply (vi_noroot _ _ Hv).
  - rewrite (rn_ns _ _ Hr), (rn_X _ _ Hr). apply (vi_par _ _ Hv).
  - rewrite (rn_ns _ _ Hr). apply (vi_chain _ _ Hv).
  - intros i Hi. rewrite (rn_ns _ _ Hr). by eapply live_Some, (rn_sub _ _ Hr).
  - apply (rn_nd _ _ Hr).
  - rewrite (rn_cl _ _ Hr). by intros i ?%elem_of_nil.
  - rewrite (rn_cl _ _ Hr). by intros i j a b ?%elem_of_nil.
  - rewrite (rn_cl _ _ Hr). apply NoDup_nil_2.
  - rewrite (rn_in _ _ Hr). by intros i ?%elem_of_nil.
  - rewrite (rn_in _ _ Hr). apply NoDup_nil_2.
  - rewrite (rn_in _ _ Hr). by intros i ?%elem_of_nil.
  - rewrite (rn_cl _ _ Hr). by intros i a ?%elem_of_nil.
  - rewrite (rn_X _ _ Hr), (rn_c _ _ Hr). apply (vi_goal _ _ Hv).
  - rewrite (rn_X _ _ Hr). intros t x op HX Hop HE. eapply renew_cov; [done..|]. apply (vi_cov _ _ Hv); [done|done|apply none_not].
  - eapply renew_cov; [done..|]. apply (vi_base _ _ Hv).
  - rewrite (rn_X _ _ Hr). apply (vi_X _ _ Hv).
Qed.

Lemma renew_weigh w v v' t x u : vinv none v → renew v v' → wd ≤ w → 0 ≤ u → wd * x ≤ w * u →
  cov v' t x → wopen w v' t u ∨ wdone w v' t u.
Proof.
  intros Hv Hr Hw Hu Hx [(i & a & [Hi|Hi] & Ha & Hs & Hg)|[(x' & Hx' & HX)|(c & Hc & Hle)]].
  - left. exists i, a. split_and!; [done..|]. nia.
  - rewrite (rn_in _ _ Hr) in Hi. by apply elem_of_nil in Hi.
  - right. left. exists x'. split; [nia|done].
  - right. right. exists c. split; [done|]. pose proof (Hh t). nia.
Qed.

Lemma renew_winv w v v' : vinv none v → renew v v' → wd ≤ w → winv w none v'.
Proof.
  intros Hv Hr Hw. pose proof (renew_vinv _ _ Hv Hr) as Hv'. split.
  - rewrite (rn_cl _ _ Hr). by intros i a u ?%elem_of_nil.
  - intros t x u op HX Hto Hle Hop HE. pose proof (wto_nonneg _ _ Hto). pose proof (ok_cost OK _ _ Hop).
    apply (renew_weigh w v v' _ (x + cost t op)); [done..|lia|nia|]. apply (vi_cov _ _ Hv'); [done|done|apply none_not].
  - apply (renew_weigh w v v' _ 0); [done..|lia|]. apply (vi_base _ _ Hv').
Qed.

(** ** The first state *)
Definition view0 : view := View [Node D None s0 nop nop 0 (h s0)] [0%nat] [] [0%nat] None [].

Lemma view0_vinv : vinv none view0.
Proof.
  assert (Hlk : ∀ i a, v_ns view0 !! i = Some a → i = 0%nat ∧ a = Node D None s0 nop nop 0 (h s0)).
  { intros i a Ha. by apply list_lookup_singleton_Some in Ha as [-> <-]. }
  split; try done.
  - intros i a [-> ->]%Hlk. done.
  - by eexists.
  - intros i a [-> ->]%Hlk. done.
  - intros i a p [-> ->]%Hlk. done.
  - intros i a [-> ->]%Hlk. eexists. by eapply chain_root.
  - intros i ->%elem_of_list_singleton. by eexists.
  - apply NoDup_singleton.
  - intros i ->%elem_of_list_singleton. by eexists.
  - by intros i j a b ->%elem_of_list_singleton ->%elem_of_list_singleton.
  - apply NoDup_singleton.
  - by intros i ?%elem_of_nil.
  - apply NoDup_nil_2.
  - by intros i ?%elem_of_nil.
  - intros i a Hi Hl. exfalso. apply Hl. by left.
  - by intros t x ?%elem_of_nil.
  - by intros t x op ?%elem_of_nil.
  - left. eexists 0%nat, _. split; [left; by left|]. split; [done|]. done.
  - by intros t x ?%elem_of_nil.
Qed.

Lemma view0_winv w : winv w none view0.
Proof.
  split.
  - intros i a u Hi Ho. done.
  - by intros t x u op ?%elem_of_nil.
  - left. eexists 0%nat, _. split; [by left|]. split; [done|]. split; [done|]. simpl. lia.
Qed.
End views.
