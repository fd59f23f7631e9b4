(** Properties C15 and C16: the k-d tree. *)
From stdpp Require Import prelude.
From Coq Require Import Lia ZArith ZifyBool ZifyNat.
From Verif.Common Require Import Fuel.
From Verif.Kdtree Require Import Model.

(** What the proofs need from the coordinate arithmetic, over the values [ok] that
    occur as coordinates: a total order, and the monotonicity that exact arithmetic
    and correctly rounded arithmetic both have. *)
Record laws {num} (A : arith num) (ok : num → Prop) : Prop := {
  lt_irrefl : ∀ a, ltb A a a = false;
  lt_negtrans : ∀ a b c, ltb A a b = false → ltb A b c = false → ltb A a c = false;
  lt_asym : ∀ a b, ltb A a b = true → ltb A b a = false;
  (** the sign of a difference *)
  sub_neg : ∀ q t, ok q → ok t → ltb A (sub A q t) (zero A) = ltb A q t;
  (** squares of differences grow with the distance, on both sides of t *)
  sq_left : ∀ q t p, ok q → ok t → ok p → ltb A q t = true → ltb A p t = false →
    ltb A (mul A (sub A p q) (sub A p q)) (mul A (neg A (sub A q t)) (neg A (sub A q t))) = false;
  sq_right : ∀ q t p, ok q → ok t → ok p → ltb A q t = false → ltb A p t = true →
    ltb A (mul A (sub A p q) (sub A p q)) (mul A (sub A q t) (sub A q t)) = false;
  sq_same : ∀ q t, ok q → ok t →
    ltb A (mul A (sub A t q) (sub A t q)) (mul A (sub A q t) (sub A q t)) = false ∧
    ltb A (mul A (sub A t q) (sub A t q)) (mul A (neg A (sub A q t)) (neg A (sub A q t))) = false;
  (** partial sums of squares: the squares are non-negative, and adding non-negative
      numbers does not decrease *)
  sq_nonneg : ∀ p q, ok p → ok q → ltb A (mul A (sub A p q) (sub A p q)) (zero A) = false;
  zero_ok : ok (zero A);
  plus_ok : ∀ a p q, ok a → ok p → ok q → ok (plus A a (mul A (sub A p q) (sub A p q)));
  plus_ge : ∀ a p q, ok a → ok p → ok q → ltb A a (zero A) = false →
    ltb A (plus A a (mul A (sub A p q) (sub A p q))) a = false ∧
    ltb A (plus A a (mul A (sub A p q) (sub A p q))) (mul A (sub A p q) (sub A p q)) = false }.

Section props.
Context {num : Type} (A : arith num) (ok : num → Prop) (L : laws A ok) (K : nat).
Notation "a ⪯ b" := (ltb A b a = false) (at level 70).

Definition ok_point (p : nat → num) : Prop := ∀ i, i < K → ok (p i).

(** Trees built by inserting the elements of a list into an empty tree, in order. *)
Definition build (es : list elem) : kdtree := foldl (insert A K) new es.

(** ** Lemmas *)

Lemma le_refl a : a ⪯ a.
Proof. apply (lt_irrefl _ _ L). Qed.
Lemma le_trans a b c : a ⪯ b → b ⪯ c → a ⪯ c.
Proof. intros H1 H2. eapply (lt_negtrans _ _ L); done. Qed.
Lemma lt_le a b : ltb A a b = true → a ⪯ b.
Proof. apply (lt_asym _ _ L). Qed.

Fixpoint elems (t : tree) : list (@elem num) :=
  match t with Leaf => [] | Node e _ l r => e :: elems l ++ elems r end.

Fixpoint bst (t : tree) : Prop :=
  match t with
  | Leaf => True
  | Node e s l r =>
    s < K ∧ ok_point (point e) ∧
    (∀ x, x ∈ elems l → ltb A (point x s) (point e s) = true) ∧
    (∀ x, x ∈ elems r → ltb A (point x s) (point e s) = false) ∧
    bst l ∧ bst r
  end.

Lemma bst_ok t e : bst t → e ∈ elems t → ok_point (point e).
Proof.
  induction t as [|x s l IHl r IHr]; simpl; [by intros _ ?%elem_of_nil|].
  intros (_ & Hok & _ & _ & Hl & Hr). rewrite elem_of_cons, elem_of_app.
  intros [->|[He|He]]; auto.
Qed.

Lemma ins_elems t d n : elems (ins A K t d n) ≡ₚ n :: elems t.
Proof.
  revert d. induction t as [|e s l IHl r IHr]; intros d; simpl; [done|].
  case_match; simpl.
  - rewrite IHl. solve_Permutation.
  - rewrite IHr. simpl. solve_Permutation.
Qed.

Lemma ins_bst t d n : 1 ≤ K → bst t → ok_point (point n) → bst (ins A K t d n).
Proof.
  intros HK. revert d. induction t as [|e s l IHl r IHr]; intros d Ht Hn; simpl.
  - split_and!; [apply Nat.mod_upper_bound; lia|done|..|done|done];
      intros x Hx; by apply elem_of_nil in Hx.
  - destruct Ht as (Hs & Hok & Hl & Hr & Htl & Htr). case_match; simpl; split_and!; auto.
    + intros x. rewrite ins_elems, elem_of_cons. intros [->|Hx]; auto.
    + intros x. rewrite ins_elems, elem_of_cons. intros [->|Hx]; auto.
Qed.

Definition sq (p q : num) : num := mul A (sub A p q) (sub A p q).

Lemma sum_ge (f g : nat → num) n acc :
  (∀ i, i ∈ n → ok (f i) ∧ ok (g i)) → ok acc → zero A ⪯ acc →
  let s := foldl (λ s i, plus A s (sq (f i) (g i))) acc n in
  zero A ⪯ s ∧ acc ⪯ s ∧ ∀ i, i ∈ n → sq (f i) (g i) ⪯ s.
Proof.
  revert acc. induction n as [|j n IH]; intros acc Hok Hoka Hacc; simpl.
  - split_and!; [done|apply le_refl|]. intros i Hi. by apply elem_of_nil in Hi.
  - destruct (Hok j) as [Hf Hg]; [by left|].
    destruct (plus_ge _ _ L acc (f j) (g j) Hoka Hf Hg Hacc) as [H1 H2].
    destruct (IH (plus A acc (sq (f j) (g j)))) as (I1 & I2 & I3).
    + intros i Hi. apply Hok. by right.
    + by apply (plus_ok _ _ L).
    + eapply le_trans; [exact Hacc|exact H1].
    + split_and!; [done| |].
      * eapply le_trans; [exact H1|exact I2].
      * intros i [->|Hi]%elem_of_cons; [|by apply I3].
        eapply le_trans; [exact H2|exact I2].
Qed.

Lemma sqdist_ge e q i :
  ok_point (point e) → ok_point q → i < K → sq (point e i) (q i) ⪯ sqdist A K e q.
Proof.
  intros He Hq Hi.
  destruct (sum_ge (point e) q (seq 0 K) (zero A)) as (_ & _ & H).
  - intros j [_ Hj]%elem_of_seq. split; [apply He|apply Hq]; lia.
  - apply (zero_ok _ _ L).
  - apply le_refl.
  - apply H. apply elem_of_seq. lia.
Qed.

(** ** Nearest *)

Lemma nearest_spec q : ok_point q → ∀ t range o range',
  bst t → nearest_ A K t q range = (o, range') →
  (* what was found is the new range *)
  (match o with Some e => e ∈ elems t ∧ range' = Some (sqdist A K e q) | None => range' = range end) ∧
  (* the range never grows *)
  (∀ r, range = Some r → ∃ r', range' = Some r' ∧ r' ⪯ r) ∧
  (* nothing in the tree is nearer than the new range *)
  (∀ e, e ∈ elems t → ∃ r', range' = Some r' ∧ r' ⪯ sqdist A K e q).
Proof.
  intros Hq. induction t as [|e s l IHl r IHr]; intros range o range' Ht H; simpl in H.
  - injection H as <- <-. split_and!; [done| |].
    + intros r ->. exists r. split; [done|apply le_refl].
    + intros e He. by apply elem_of_nil in He.
  - destruct Ht as (Hs & Hok & Hl & Hr & Htl & Htr). simpl.
    set (c := ltb A (sub A (q s) (point e s)) (zero A)) in *.
    set (diff := if c then neg A (sub A (q s) (point e s)) else sub A (q s) (point e s)) in *.
    set (this := if c then l else r). set (other := if c then r else l).
    assert (c = ltb A (q s) (point e s)) as Hc by (apply (sub_neg _ _ L); auto).
    clearbody c.
    assert (∀ x, x ∈ e :: elems l ++ elems r ↔ x = e ∨ x ∈ elems this ∨ x ∈ elems other) as Hin.
    { intros x. rewrite elem_of_cons, elem_of_app. unfold this, other. destruct c; tauto. }
    assert (∀ x, x = e ∨ x ∈ elems other → mul A diff diff ⪯ sqdist A K x q) as Hfar.
    { intros x Hx.
      assert (ok_point (point x)) as Hokx.
      { destruct Hx as [->|Hx]; [done|]. unfold other in Hx. destruct c; [exact (bst_ok r x Htr Hx)|exact (bst_ok l x Htl Hx)]. }
      eapply le_trans; [|by apply (sqdist_ge x q s)].
      unfold sq, diff. destruct Hx as [->|Hx].
      - destruct (sq_same _ _ L (q s) (point e s)) as [H1 H2]; [auto..|]. by destruct c.
      - unfold other in Hx. destruct c.
        + apply (sq_left _ _ L); auto.
        + apply (sq_right _ _ L); auto. }
    assert (∃ n1 range1, nearest_ A K this q range = (n1, range1) ∧
      (if c then nearest_ A K l q range else nearest_ A K r q range) = (n1, range1))
      as (n1 & range1 & Hthis & Hthis').
    { unfold this. destruct c; destruct (nearest_ A K _ q range) as [n1 range1]; eauto. }
    rewrite Hthis' in H. clear Hthis'.
    assert (∀ rg a b, nearest_ A K this q rg = (a, b) →
        (match a with Some e => e ∈ elems this ∧ b = Some (sqdist A K e q) | None => b = rg end) ∧
        (∀ r, rg = Some r → ∃ r', b = Some r' ∧ r' ⪯ r) ∧
        (∀ e, e ∈ elems this → ∃ r', b = Some r' ∧ r' ⪯ sqdist A K e q)) as IH1.
    { unfold this. intros rg a b Hn. destruct c; [by apply IHl|by apply IHr]. }
    assert (∀ rg a b, nearest_ A K other q rg = (a, b) →
        (match a with Some e => e ∈ elems other ∧ b = Some (sqdist A K e q) | None => b = rg end) ∧
        (∀ r, rg = Some r → ∃ r', b = Some r' ∧ r' ⪯ r) ∧
        (∀ e, e ∈ elems other → ∃ r', b = Some r' ∧ r' ⪯ sqdist A K e q)) as IH2.
    { unfold other. intros rg a b Hn. destruct c; [by apply IHr|by apply IHl]. }
    destruct (IH1 _ _ _ Hthis) as (Ha1 & Hb1 & Hc1). clear IH1 Hthis.
    destruct (gt_range A (mul A diff diff) range1) eqn:Eprune.
    + injection H as <- <-. split_and!.
      * destruct n1 as [x|]; [|done]. destruct Ha1 as [Hx ->]. split; [|done].
        apply Hin. auto.
      * done.
      * intros x Hx. apply Hin in Hx as [Hx|[Hx|Hx]]; [|by apply Hc1|].
        all: unfold gt_range in Eprune; destruct range1 as [r1|]; [|done].
        all: exists r1; split; [done|]; eapply le_trans; [by apply lt_le|]; apply Hfar; auto.
    + clear Eprune. set (d := sqdist A K e q) in *.
      assert (∃ n2 range2, (if negb (gt_range A d range1)
        then (Some e, match range1 with Some r0 => Some (if ltb A r0 d then r0 else d) | None => Some d end)
        else (n1, range1)) = (n2, range2) ∧
        (match n2 with Some x => (x = e ∨ x ∈ elems this) ∧ range2 = Some (sqdist A K x q)
         | None => range2 = range end) ∧
        (∀ r, range1 = Some r → ∃ r', range2 = Some r' ∧ r' ⪯ r) ∧
        ∃ r', range2 = Some r' ∧ r' ⪯ d) as (n2 & range2 & Heq & Ha2 & Hb2 & r2 & Hr2 & Hd2).
      { unfold gt_range. destruct range1 as [r1|]; simpl.
        - destruct (ltb A r1 d) eqn:E; simpl.
          + exists n1, (Some r1). split_and!; [done| | |].
            * destruct n1 as [x|]; [|done]. destruct Ha1. auto.
            * intros r0 [= ->]. exists r0. split; [done|apply le_refl].
            * exists r1. split; [done|by apply lt_le].
          + exists (Some e), (Some d). split; [done|]; split; [by auto|]; split.
            * intros r0 [= ->]. by exists d.
            * exists d. split; [done|apply le_refl].
        - exists (Some e), (Some d). split; [done|]; split; [by auto|]; split; [done|].
          exists d. split; [done|apply le_refl]. }
      rewrite Heq in H. clear Heq.
      assert (∃ m range3, nearest_ A K other q range2 = (m, range3) ∧
        (if c then nearest_ A K r q range2 else nearest_ A K l q range2) = (m, range3))
        as (m & range3 & Hother & Hother').
      { unfold other. destruct c; destruct (nearest_ A K _ q range2) as [m range3]; eauto. }
      rewrite Hother' in H. clear Hother'. injection H as <- <-.
      destruct (IH2 _ _ _ Hother) as (Ha3 & Hb3 & Hc3). clear IH2 Hother.
      split_and!.
      * destruct m as [x|].
        -- destruct Ha3 as [Hx ->]. split; [|done]. apply Hin. auto.
        -- destruct n2 as [x|]; [|congruence]. destruct Ha2 as [Hx ->]. split; [|done].
           apply Hin. destruct Hx; auto.
      * intros r0 Hr0. destruct (Hb1 r0 Hr0) as (r1 & Hr1 & Hle1).
        destruct (Hb2 r1 Hr1) as (r2' & Hr2' & Hle2). destruct (Hb3 r2' Hr2') as (r3 & Hr3 & Hle3).
        exists r3. split; [done|]. eapply le_trans; [done|]. by eapply le_trans.
      * intros x Hx. apply Hin in Hx as [->|[Hx|Hx]].
        -- destruct (Hb3 r2 Hr2) as (r3 & Hr3 & Hle3). exists r3. split; [done|]. by eapply le_trans.
        -- destruct (Hc1 x Hx) as (r1 & Hr1 & Hle1).
           destruct (Hb2 r1 Hr1) as (r2' & Hr2' & Hle2). destruct (Hb3 r2' Hr2') as (r3 & Hr3 & Hle3).
           exists r3. split; [done|]. eapply le_trans; [done|]. by eapply le_trans.
        -- by apply Hc3.
Qed.

Lemma foldl_ins es : ∀ t,
  1 ≤ K → bst (root t) → (∀ e, e ∈ es → ok_point (point e)) →
  let t' := foldl (insert A K) t es in
  bst (root t') ∧ elems (root t') ≡ₚ es ++ elems (root t) ∧ num_ t' = length es + num_ t.
Proof.
  induction es as [|e es IH]; intros t HK Ht Hok; simpl; [done|].
  destruct (IH (insert A K t e)) as (H1 & H2 & H3).
  - done.
  - simpl. apply ins_bst; [done|done|]. apply Hok. by left.
  - intros x Hx. apply Hok. by right.
  - split_and!; [done| |].
    + rewrite H2. simpl. rewrite ins_elems. solve_Permutation.
    + rewrite H3. simpl. lia.
Qed.

Lemma build_spec es :
  1 ≤ K → (∀ e, e ∈ es → ok_point (point e)) →
  bst (root (build es)) ∧ elems (root (build es)) ≡ₚ es ∧ num_ (build es) = length es.
Proof.
  intros HK Hok. destruct (foldl_ins es new HK I Hok) as (H1 & H2 & H3).
  unfold build. split_and!; [done| |].
  - rewrite H2. simpl. by rewrite app_nil_r.
  - rewrite H3. simpl. lia.
Qed.

(** ** C15 *)

(** The element returned is one of those inserted, and none is nearer. *)
Theorem C15_nearest_is_minimal es q e :
  1 ≤ K → (∀ e, e ∈ es → ok_point (point e)) → ok_point q →
  nearest A K (build es) q = Some e →
  e ∈ es ∧ ∀ e', e' ∈ es → sqdist A K e q ⪯ sqdist A K e' q.
Proof.
  intros HK Hok Hq Hn. destruct (build_spec es HK Hok) as (Hb & Hp & _).
  unfold nearest in Hn. destruct (nearest_ A K (root (build es)) q None) as [o r'] eqn:E.
  simpl in Hn. subst o.
  destruct (nearest_spec q Hq _ _ _ _ Hb E) as ((He & ->) & _ & Hall). split.
  - by rewrite <-Hp.
  - intros e' He'. destruct (Hall e') as (r & [= <-] & Hle); [by rewrite Hp|]. done.
Qed.

(** Nothing is returned only for the empty tree. *)
Theorem C15_nearest_none_iff_empty es q :
  1 ≤ K → (∀ e, e ∈ es → ok_point (point e)) → ok_point q →
  (nearest A K (build es) q = None ↔ es = []).
Proof.
  intros HK Hok Hq. destruct (build_spec es HK Hok) as (Hb & Hp & _).
  unfold nearest. destruct (nearest_ A K (root (build es)) q None) as [o r'] eqn:E.
  destruct (nearest_spec q Hq _ _ _ _ Hb E) as (Ho & _ & Hall). simpl. split.
  - intros ->. destruct es as [|e es]; [done|]. subst r'.
    destruct (Hall e) as (r & ? & _); [rewrite Hp; by left|done].
  - intros ->. simpl in E. by injection E as <- <-.
Qed.

(** ** C16 *)

Theorem C16_size_counts_insertions es : size (build es) = length es.
Proof.
  unfold build. assert (∀ t : kdtree, size (foldl (insert A K) t es) = length es + size t) as H.
  { induction es as [|e es IH]; intros t; simpl; [done|]. rewrite IH. simpl. unfold size. simpl. lia. }
  rewrite H. simpl. unfold size. simpl. lia.
Qed.

Lemma push_elems (t : @tree num) (st : list (@tree num)) : concat (elems <$> push t st) = elems t ++ concat (elems <$> st).
Proof. by destruct t. Qed.
Lemma push_nonleaf (t : @tree num) (st : list (@tree num)) : Leaf ∉ st → Leaf ∉ push t st.
Proof. destruct t; simpl; [done|]. intros H. apply not_elem_of_cons. done. Qed.

Lemma it_loop_spec n : ∀ fuel st,
  length (concat (elems <$> st)) ≤ n → n ≤ fuel → Leaf ∉ st →
  it_loop fuel st = Some (concat (elems <$> st)).
Proof.
  induction n as [|n IH]; intros fuel st Hlen Hf Hst.
  - destruct st as [|[|e s l r] st]; [by destruct fuel| |csimpl in Hlen; lia].
    exfalso. apply Hst. by left.
  - destruct st as [|[|e s l r] st]; [by destruct fuel|exfalso; apply Hst; by left|].
    destruct fuel as [|fuel]; [lia|]. cbn [it_loop it_next mbind option_bind].
    apply not_elem_of_cons in Hst as [_ Hst].
    rewrite IH.
    + csimpl. rewrite !push_elems. by rewrite <-app_assoc.
    + rewrite !push_elems. csimpl in Hlen. rewrite !app_length in *. lia.
    + lia.
    + by do 2 apply push_nonleaf.
Qed.

(** Iteration terminates and yields exactly the inserted elements. *)
Theorem C16_iteration_yields_each_once es :
  1 ≤ K → (∀ e, e ∈ es → ok_point (point e)) →
  ∃ l, ends (λ n, iterate n (build es)) l ∧ l ≡ₚ es.
Proof.
  intros HK Hok. destruct (build_spec es HK Hok) as (_ & Hp & _).
  exists (elems (root (build es))). split; [|done].
  exists (length (elems (root (build es)))). intros n Hn. unfold iterate.
  rewrite (it_loop_spec (length (elems (root (build es))))).
  - rewrite push_elems. csimpl. by rewrite app_nil_r.
  - rewrite push_elems. csimpl. by rewrite app_nil_r.
  - done.
  - apply push_nonleaf. set_solver.
Qed.

End props.

(** ** Exact arithmetic on integers *)
Definition Zarith : arith Z := {|
  zero := 0%Z; ltb := Z.ltb; sub := Z.sub; neg := Z.opp; mul := Z.mul; plus := Z.add |}.

Lemma Zlaws : laws Zarith (λ _, True).
Proof.
  split; simpl.
  - intros a. lia.
  - intros a b c. lia.
  - intros a b. lia.
  - intros q t _ _. lia.
  - intros q t p _ _ _ H1%Z.ltb_lt H2%Z.ltb_ge. apply Z.ltb_ge.
    apply (Z.square_le_mono_nonneg (- (q - t)) (p - q)); lia.
  - intros q t p _ _ _ H1%Z.ltb_ge H2%Z.ltb_lt. apply Z.ltb_ge.
    rewrite <-(Z.mul_opp_opp (p - q)). apply Z.square_le_mono_nonneg; lia.
  - intros q t _ _. rewrite !Z.ltb_ge. nia.
  - intros p q _ _. rewrite Z.ltb_ge. apply Z.square_nonneg.
  - done.
  - done.
  - intros a p q _ _ _ H%Z.ltb_ge. rewrite !Z.ltb_ge. pose proof (Z.square_nonneg (p - q)). lia.
Qed.

(** ** Non-vacuity: five points in the plane, two of them equally near. *)
Definition pt2 (x y : Z) : nat → Z := λ i, if decide (i = 0) then x else y.
Definition es5 : list (@elem Z) :=
  [Elem (pt2 5 5) 0; Elem (pt2 2 7) 1; Elem (pt2 8 1) 2; Elem (pt2 5 5) 3; Elem (pt2 (-3) 4) 4].
Example ex_nearest :
  (data <$> nearest Zarith 2 (build Zarith 2 es5) (pt2 7 2)) = Some 2 ∧
  (data <$> nearest Zarith 2 (build Zarith 2 es5) (pt2 0 5)) = Some 1 ∧
  (length <$> iterate 10 (build Zarith 2 es5)) = Some 5.
Proof. vm_compute. done. Qed.

Print Assumptions C15_nearest_is_minimal.
Print Assumptions C15_nearest_none_iff_empty.
Print Assumptions C16_size_counts_insertions.
Print Assumptions C16_iteration_yields_each_once.
