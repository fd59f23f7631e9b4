(** The functions of the ARA-star model, in terms of the relations of Ara/Proofs.v. *)
From stdpp Require Import prelude.
From Coq Require Import ZArith Lia ZifyBool ZifyNat.
From Verif Require Import Common.Orders Common.Fuel BinHeap.Model BinHeap.Proofs.
From Verif Require Import Search.Model Search.Proofs Search.Props Ara.Model Ara.Proofs.
Local Open Scope Z_scope.

Lemma inv_mono {K} (lt : K → K → bool) (X X' : nat → Prop) (q : heap K) :
  (∀ e, e ∉ arr q → X' e → X e) → BinHeap.Proofs.inv lt X q → BinHeap.Proofs.inv lt X' q.
Proof. intros HX [Ho He Hi]. split; [done..|]. intros e Hne He'. by apply Hi, HX. Qed.

Lemma setkeys_app {K} (q : heap K) k1 k2 : setkeys q (k1 ++ k2) = setkeys (setkeys q k1) k2.
Proof. revert q. induction k1 as [|[e k] k1 IH]; intros q; [done|]. simpl. apply IH. Qed.

Section refine.
Set Default Proof Using "All".
Context (D : domain) (h : St D → Z) (wn0 dw wd : Z) (lim : limits) (s0 : St D).
Context (OK : domain_ok D) (Hh : ∀ s, (0 ≤ h s)%Z) (Hwd : (0 < wd)%Z).

Notation node := (node D (P:=Z)).
Notation lt := astar_lt.
Notation vinv := (vinv D h s0).
Notation winv := (winv D h wd s0).
Notation kid := (kid D h).
Notation todo := (todo D).
Notation none := (none D).
Notation astate := (astate D).
Implicit Types (ns : list node) (s : astate).

Let lt_asym a b : lt a b = true → lt b a = false.
Proof. apply sw_asym, astar_lt_sw. Qed.
Let lt_neg a b c : lt b a = false → lt c b = false → lt c a = false.
Proof. apply sw_neg_trans, astar_lt_sw. Qed.

(** ** The closed list *)
Lemma find_in_Some ns l t d : find_in D ns l t = Some d → d ∈ l ∧ ∃ a, ns !! d = Some a ∧ n_state D a = t.
Proof.
  induction l as [|i l IH]; simpl; [done|]. destruct (ns !! i) as [a|] eqn:Ha.
  - destruct (decide (n_state D a = t)) as [Hs|Hs].
    + intros [= <-]. split; [left|]. by exists a.
    + intros [? ?]%IH. split; [by right|done].
  - intros [? ?]%IH. split; [by right|done].
Qed.
Lemma find_in_None ns l t i a : find_in D ns l t = None → i ∈ l → ns !! i = Some a → n_state D a ≠ t.
Proof.
  induction l as [|j l IH]; simpl; [by intros _ ?%elem_of_nil|]. destruct (ns !! j) as [b|] eqn:Hb.
  - destruct (decide (n_state D b = t)) as [Hs|Hs]; [done|].
    intros Hf [->|Hi]%elem_of_cons Ha; [congruence|by apply IH].
  - intros Hf [->|Hi]%elem_of_cons Ha; [congruence|by apply IH].
Qed.

(** ** A state and its view *)
Definition vw s (X : list (St D * Z)) : view D :=
  View D (a_nodes D s) (arr (a_open D s)) (a_incons D s) (a_closed D s) (a_cost D s) X.

Definition keyed (w : Z) ns (q : heap (Z * Z)) : Prop :=
  ∀ i a, i ∈ arr q → ns !! i = Some a → key q i = (wd * n_g D a + w * n_p D a, n_g D a).

Definition hok s : Prop :=
  BinHeap.Proofs.inv lt (λ i, i ∈ a_closed D s) (a_open D s) ∧ keyed (a_wt D s) (a_nodes D s) (a_open D s).

Definition steady s s' : Prop :=
  a_wt D s' = a_wt D s ∧ a_cost D s' = a_cost D s ∧ a_sols D s' = a_sols D s ∧ a_rows D s' = a_rows D s ∧
  a_expd D s' = a_expd D s ∧
  (length (arr (a_open D s')) + length (a_closed D s) = length (arr (a_open D s)) + length (a_closed D s'))%nat ∧
  (length (a_closed D s) ≤ length (a_closed D s'))%nat.

Lemma aconsiderkid_kid E s X n pn op :
  vinv E (vw s X) → hok s → a_nodes D s !! n = Some pn →
  ∃ s', aconsiderkid D h wd s n op = Some s' ∧ hok s' ∧ kid (vw s X) n pn op (vw s' X) ∧ steady s s'.
Proof.
  intros Hv [Hi Hk] Hn. unfold aconsiderkid. rewrite Hn. cbn [mbind option_bind].
  rewrite edge_split. set (t := dest (n_state D pn) op). set (g := n_g D pn + cost (n_state D pn) op).
  destruct (find_in D (a_nodes D s) (a_closed D s) t) as [d|] eqn:Hf.
  - destruct (find_in_Some _ _ _ _ Hf) as (Hcl & dn & Hd & Hs). rewrite Hd. cbn [mbind option_bind].
    destruct (bool_decide_reflect (n_g D dn ≤ g)) as [Hle|Hgt].
    { exists s. split; [done|]. split; [done|]. split; [by eapply kid_old|done]. }
    set (q := setkey (a_open D s) d _). set (a' := Node D (Some n) _ _ _ _ _).
    assert (Hdl : (d < length (a_nodes D s))%nat) by by eapply lookup_lt_Some.
    assert (Hnew : ∀ i a, <[d:=a']> (a_nodes D s) !! i = Some a → (i = d ∧ a = a') ∨ (i ≠ d ∧ a_nodes D s !! i = Some a)).
    { intros i a. destruct (decide (i = d)) as [->|Hne].
      - rewrite list_lookup_insert by done. naive_solver.
      - rewrite list_lookup_insert_ne by done. naive_solver. }
    change (ind q d) with (ind (a_open D s) d).
    destruct (bool_decide_reflect (ind (a_open D s) d < 0)) as [Hneg|Hpos].
    + assert (Hno : d ∉ arr (a_open D s)).
      { intros [j Hj]%elem_of_list_lookup_1. pose proof (proj2 (inv_exact _ _ _ Hi) _ _ Hj). lia. }
      eexists. split; [done|]. split; [split|split].
      * destruct Hi as [H1 H2 H3]. split; [|done|done]. intros j Hj Hp x y Hx Hy. simpl. rewrite !decide_False.
        -- by apply (H1 j).
        -- intros ->. apply Hno. by eapply elem_of_list_lookup_2.
        -- intros ->. apply Hno. by eapply elem_of_list_lookup_2.
      * intros i a Hia Ha. simpl in *. destruct (Hnew _ _ Ha) as [[-> _]|[Hne Ha']]; [done|].
        rewrite decide_False by done. by apply Hk.
      * eapply kid_better; simpl; [done|exact Hd|done|done|unfold g in *; lia|done|].
        right. unfold incons_add.
        destruct (find_in D (<[d:=a']> (a_nodes D s)) (a_incons D s) (n_state D dn)) as [e|] eqn:Hfe.
        -- left. destruct (find_in_Some _ _ _ _ Hfe) as (Hei & b & Hb & Hbs).
           assert (e = d) as ->; [|done].
           destruct (Hnew _ _ Hb) as [[-> _]|[_ Hb']]; [done|].
           apply (vi_clinj _ _ _ _ _ Hv e d b dn); [by apply (vi_in _ _ _ _ _ Hv)|done..].
        -- right. split; [done|]. split; [|done]. intros Hin.
           eapply find_in_None; [exact Hfe|exact Hin|by rewrite list_lookup_insert|done].
      * repeat split; simpl; lia.
    + assert (Hin : d ∈ arr (a_open D s)).
      { destruct (decide (d ∈ arr (a_open D s))) as [|Hno]; [done|].
        pose proof (inv_out _ _ _ Hi d Hno Hcl). lia. }
      destruct (update_spec lt lt_asym lt_neg _ (a_open D s) d
        ((key (a_open D s) d).1 - wd * n_g D dn + wd * g, g) Hi Hin) as (q' & Hq & Hi' & HP & Hkq).
      unfold q. rewrite Hq. cbn [mbind option_bind]. eexists. split; [done|]. split; [split|split].
      * done.
      * intros i a Hia Ha. simpl in *. rewrite Hkq. simpl. rewrite HP in Hia.
        destruct (Hnew _ _ Ha) as [[-> ->]|[Hne Ha']].
        -- rewrite decide_True by done. simpl. rewrite (Hk d dn) by done. simpl. f_equal. lia.
        -- rewrite decide_False by done. by apply Hk.
      * eapply kid_better; simpl; [done|exact Hd|done|done|unfold g in *; lia|exact HP|]. left. done.
      * unfold steady. simpl. rewrite HP. done.
  - assert (Hno : length (a_nodes D s) ∉ arr (a_open D s)).
    { intros [b Hb]%(vi_op _ _ _ _ _ Hv). apply lookup_lt_Some in Hb. simpl in Hb. lia. }
    destruct (push_spec lt lt_asym lt_neg _ (a_open D s) (length (a_nodes D s)) (wd * g + a_wt D s * h t, g) Hi Hno)
      as (q' & Hq & Hi' & HP & Hkq).
    rewrite Hq. cbn [mbind option_bind]. eexists. split; [done|]. split; [split|split].
    + simpl. eapply inv_mono; [|exact Hi']. intros e He [->|?]%elem_of_cons; [|done].
      exfalso. apply He. rewrite HP. left.
    + intros i a Hia Ha. simpl in *. rewrite Hkq. simpl. rewrite HP in Hia.
      destruct (decide (i = length (a_nodes D s))) as [->|Hne].
      * rewrite list_lookup_middle in Ha by done. injection Ha as <-. done.
      * apply elem_of_cons in Hia as [?|Hia]; [done|]. apply Hk; [done|].
        apply lookup_app_Some in Ha as [Ha|[Hl Ha]]; [done|]. apply list_lookup_singleton_Some in Ha as [? _]. lia.
    + eapply kid_new; simpl; [|done|exact HP]. intros i a Hic Ha. by eapply find_in_None.
    + unfold steady. simpl. rewrite HP. simpl. repeat split; lia.
Qed.

Lemma vinv_todo_nil t x v : vinv (todo t x []) v → vinv none v.
Proof.
  intros [A1 A2 A3 A4 A5 A6 A7 A8 A9 A10 A11 A12 A13 A14 A15 A16 A17 A18]. split; try done.
  intros t' x' op HX Hop _. apply A16; [done..|]. by intros (_ & _ & ?%elem_of_nil).
Qed.
Lemma winv_todo_nil w t x v : winv w (todo t x []) v → winv w none v.
Proof.
  intros [A1 A2 A3]. split; try done.
  intros t' x' u op HX Hto Hle Hop _. apply (A2 t' x'); [done..|]. by intros (_ & _ & ?%elem_of_nil).
Qed.

Lemma steady_trans s1 s2 s3 : steady s1 s2 → steady s2 s3 → steady s1 s3.
Proof. unfold steady. intros (->&->&->&->&->&?&?) (->&->&->&->&->&?&?). repeat split; lia. Qed.

Lemma aexpand_ops_spec X n pn os : ∀ s,
  vinv (todo (n_state D pn) (n_g D pn) os) (vw s X) →
  (consistent h → winv (a_wt D s) (todo (n_state D pn) (n_g D pn) os) (vw s X)) →
  wd ≤ a_wt D s → hok s → a_nodes D s !! n = Some pn → n ∉ arr (a_open D s) → (n_state D pn, n_g D pn) ∈ X →
  (∀ op, op ∈ os → op ∈ ops (n_state D pn)) →
  ∃ s', aexpand_ops D h wd s n os = Some s' ∧ vinv none (vw s' X) ∧
    (consistent h → winv (a_wt D s') none (vw s' X)) ∧ hok s' ∧ steady s s'.
Proof.
  induction os as [|op os IH]; intros s Hv Hwi Hw Hk Hn Hno HX Hos.
  { exists s. split; [done|]. split; [by eapply vinv_todo_nil|]. split; [|done].
    intros Hc. by eapply winv_todo_nil, Hwi. }
  assert (Hop : op ∈ ops (n_state D pn)) by (apply Hos; left).
  assert (Hos' : ∀ op', op' ∈ os → op' ∈ ops (n_state D pn)) by (intros; apply Hos; by right).
  cbn [aexpand_ops]. rewrite Hn. cbn [mbind option_bind]. destruct (decide (op = n_pop D pn)) as [Hpop|Hpop].
  - destruct (skip_X D h wd s0 OK Hh Hwd _ _ _ _ _ Hv Hn Hop Hpop) as (x & HxX & Hx).
    pose proof (ok_cost OK _ _ Hop) as Hc0.
    apply IH; try done.
    + eapply (todo_cov D h wd s0 OK Hh Hwd); [exact Hv|]. right. left. exists x. split; [lia|done].
    + intros Hc. eapply (todo_wcov D h wd s0 OK Hh Hwd); [by apply Hwi|]. intros u Hto Hle. right. left.
      exists x. split; [nia|done].
  - destruct (aconsiderkid_kid _ (aadd_gend D s) X n pn op Hv Hk Hn) as (s' & Hs' & Hk' & Hkid & Hst).
    rewrite Hs'. cbn [mbind option_bind].
    change (vw (aadd_gend D s) X) with (vw s X) in Hkid. change (steady s s') in Hst.
    pose proof (kid_vinv D h wd s0 OK Hh Hwd _ _ _ _ _ _ Hv Hn Hop HX Hkid) as Hv'.
    destruct (kid_self D h wd s0 OK Hh Hwd (vw s X) _ _ _ (vw s' X) Hn Hno Hop Hkid) as (Hn' & Hno' & _). simpl in Hn', Hno'.
    assert (Hwt : a_wt D s' = a_wt D s) by apply Hst.
    destruct (IH s') as (s'' & Hs'' & H1 & H2 & H3 & H4); try done.
    + eapply (todo_cov D h wd s0 OK Hh Hwd); [exact Hv'|].
      eapply (kid_cov D h wd s0 OK Hh Hwd (vw s X)); [exact Hv|exact Hkid].
    + intros Hc. rewrite Hwt. specialize (Hwi Hc).
      eapply (todo_wcov D h wd s0 OK Hh Hwd); [eapply (kid_winv D h wd s0 OK Hh Hwd); [exact Hv|exact Hwi|exact Hkid]|].
      intros u Hto Hle. eapply (kid_wcov D h wd s0 OK Hh Hwd (a_wt D s) (vw s X)); [exact Hv|exact Hwi|exact Hw|exact Hkid|done..].
    + by rewrite Hwt.
    + exists s''. split_and!; try done. by eapply steady_trans.
Qed.

(** ** A round of improve *)
Lemma around_spec s X :
  vinv none (vw s X) → (consistent h → winv (a_wt D s) none (vw s X)) → wd ≤ a_wt D s → hok s →
  goodnodes D wd s = true →
  ∃ s' g X', around D h wd s = Some (s', g) ∧ vinv none (vw s' X') ∧
    (consistent h → winv (a_wt D s') none (vw s' X')) ∧ hok s' ∧
    a_wt D s' = a_wt D s ∧ a_rows D s' = a_rows D s ∧ a_expd D s' = S (a_expd D s) ∧
    (length (arr (a_open D s')) + length (a_closed D s) + 1 = length (arr (a_open D s)) + length (a_closed D s'))%nat ∧
    (length (a_closed D s) ≤ length (a_closed D s'))%nat ∧
    (if g then
       ∃ c path os k, a_cost D s' = Some c ∧ a_sols D s' = (c, (path, os)) :: a_sols D s ∧
         solution s0 (reverse path) (reverse os) k ∧ k ≤ c ∧ 0 ≤ c ∧
         (∀ c0, a_cost D s = Some c0 → c < c0) ∧
         (consistent h → ∀ ss' os' k', solution s0 ss' os' k' → wd * c ≤ a_wt D s * k')
     else a_cost D s' = a_cost D s ∧ a_sols D s' = a_sols D s).
Proof.
  intros Hv Hwi Hw [Hi Hk] Hgood. unfold goodnodes, front in Hgood.
  case_decide as Hlen; [done|]. pose proof (pop_spec lt lt_asym lt_neg _ (a_open D s) Hi) as Hpop.
  destruct (arr (a_open D s)) as [|n rest] eqn:Harr; [done|]. cbn [lookup list_lookup] in Hgood.
  destruct Hpop as (q & Hq & Hi' & HP & Hkq & Hmin).
  assert (Hnin : n ∈ arr (a_open D s)) by (rewrite Harr; left).
  destruct (vi_op _ _ _ _ _ Hv n Hnin) as [pn Hn]. simpl in Hn.
  pose proof (Hk n pn Hnin Hn) as Hkn.
  destruct (vi_p _ _ _ _ _ Hv _ _ Hn) as [Hpn Hg0].
  assert (Hlt : ∀ c, a_cost D s = Some c → n_g D pn < c).
  { intros c Hc. rewrite Hc, Hkn in Hgood. simpl in Hgood. apply bool_decide_eq_true in Hgood.
    pose proof (Hh (n_state D pn)). rewrite Hpn in Hgood. nia. }
  assert (Hleast : least D wd (a_wt D s) (vw s X) n pn).
  { intros i a Hia Ha. simpl in Hia, Ha.
    assert (Hl : lt (key (a_open D s) i) (key (a_open D s) n) = false) by (apply Hmin; by rewrite <-Harr).
    rewrite Hkn, (Hk i a) in Hl by done. unfold astar_lt in Hl. simpl in Hl.
    case_decide as Heq; apply bool_decide_eq_false in Hl; lia. }
  unfold around. rewrite Hq. cbn [mbind option_bind].
  unfold aset_open. cbn [a_nodes]. rewrite Hn. cbn [mbind option_bind].
  set (X' := (n_state D pn, n_g D pn) :: X).
  set (c' := if isgoal (n_state D pn) then Some (n_g D pn) else a_cost D s).
  assert (Hgen : ∀ s1, a_nodes D s1 = a_nodes D s → a_open D s1 = q → a_closed D s1 = a_closed D s →
    a_incons D s1 = a_incons D s → a_wt D s1 = a_wt D s → a_cost D s1 = c' →
    ∃ s', aexpand D h wd s1 n = Some s' ∧ vinv none (vw s' X') ∧
      (consistent h → winv (a_wt D s') none (vw s' X')) ∧ hok s' ∧ steady (aadd_expd D s1) s').
  { intros s1 E1 E2 E3 E4 E5 E6. unfold aexpand. rewrite E1, Hn. cbn [mbind option_bind].
    assert (Hpops : pops D (vw s X) n pn (vw s1 X')).
    { split; simpl; try done; rewrite ?E2, ?Harr; done. }
    pose proof (pops_vinv D h wd s0 OK Hh Hwd _ _ _ _ Hv Hpops) as Hv1.
    assert (Hno : n ∉ arr q).
    { pose proof (vi_opnd _ _ _ _ _ Hv) as Hnd. simpl in Hnd. rewrite Harr, HP in Hnd. by apply NoDup_cons in Hnd as [? _]. }
    apply (aexpand_ops_spec X' n pn).
    - exact Hv1.
    - intros Hc. cbn [a_wt aadd_expd]. rewrite E5. change (vw (aadd_expd D s1) X') with (vw s1 X').
      apply (pops_winv D h wd s0 OK Hh Hwd (a_wt D s) (vw s X) n pn); [done|by apply Hwi|done..].
    - simpl. by rewrite E5.
    - split; simpl; rewrite ?E2, ?E3; [done|]. intros i a Hia Ha. simpl in Ha. rewrite E5, Hkq. rewrite E1 in Ha. apply Hk; [|done].
      rewrite Harr, HP. by right.
    - simpl. by rewrite E1.
    - simpl. by rewrite E2.
    - left.
    - done. }
  assert (Hlq : length (n :: rest) = S (length (arr q))) by by rewrite HP.
  destruct (isgoal (n_state D pn)) eqn:Hgoal.
  - destruct (vi_chain _ _ _ _ _ Hv _ _ Hn) as [l Hl].
    destruct (chain_solpath D h wd s0 OK Hh Hwd (vw s X) _ n l (S (length (a_nodes D s))) pn Hv Hl Hn)
      as (path & os & k & Hsp & Hwk & Hhd & Hlast & Hkg).
    { pose proof (chain_length _ _ _ Hl). simpl in *. lia. }
    simpl in Hsp. cbn [solpath] in Hsp. cbn [a_nodes solpath]. rewrite Hsp. cbn [mbind option_bind].
    cbn [a_open a_closed a_incons a_wt a_cost a_sols a_rows a_expd a_gend].
    destruct (Hgen (AState D (a_nodes D s) q (a_closed D s) (a_incons D s) (a_wt D s) (Some (n_g D pn))
      ((n_g D pn, (path, os)) :: a_sols D s) (a_rows D s) (a_expd D s) (a_gend D s)))
      as (s' & Hs' & H1 & H2 & H3 & (S1 & S2 & S3 & S4 & S5 & S6 & S7)); [done..|].
    simpl in Hs'. rewrite Hs'. cbn [mbind option_bind]. simpl in S1, S2, S3, S4, S5, S6, S7. simpl in Hlq.
    exists s', true, X'. split_and!; try done; [simpl; lia|].
    exists (n_g D pn), path, os, k. split_and!; try done.
    + split; [done|]. split; [done|]. by exists (n_state D pn).
    + intros Hc ss' os' k' Hsol.
      by apply (pops_bound D h wd s0 OK Hh Hwd (a_wt D s) (vw s X) n pn ss' os' k' Hv (Hwi Hc) Hc Hw Hn Hlt Hleast).
  - cbn [a_open a_closed a_incons a_wt a_cost a_sols a_rows a_expd a_gend].
    destruct (Hgen (AState D (a_nodes D s) q (a_closed D s) (a_incons D s) (a_wt D s) (a_cost D s)
      (a_sols D s) (a_rows D s) (a_expd D s) (a_gend D s)))
      as (s' & Hs' & H1 & H2 & H3 & (S1 & S2 & S3 & S4 & S5 & S6 & S7)); [done..|].
    rewrite Hs'. cbn [mbind option_bind]. simpl in S1, S2, S3, S4, S5, S6, S7. simpl in Hlq.
    exists s', false, X'. split_and!; try done. simpl; lia.
Qed.
End refine.
