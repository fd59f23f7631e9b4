(** The sliding tile domain: C47, C48, C49. *)
From stdpp Require Import prelude.
From Coq Require Import ZArith Lia ZifyBool ZifyNat.
From Verif Require Import Common.Fuel Search.Model Search.Props Tiles.Model.
Local Open Scope nat_scope.

(** ** Specification *)

(** Rows and columns of a board of width [W]; two cells are adjacent if they share a side. *)
Definition adjacent (W i j : nat) : Prop :=
  (i / W = j / W ∧ (i mod W = S (j mod W) ∨ j mod W = S (i mod W))) ∨
  (i mod W = j mod W ∧ (i / W = S (j / W) ∨ j / W = S (i / W))).

(** Horizontal plus vertical distance of cell [i] to the goal cell of tile [t]. *)
Definition tdist (W : nat) (goalpos : nat → nat) (t i : nat) : Z :=
  (Z.abs (Z.of_nat (i / W) - Z.of_nat (goalpos t / W)) +
   Z.abs (Z.of_nat (i mod W) - Z.of_nat (goalpos t mod W)))%Z.

(** The Manhattan distance of a board: the sum over its tiles, blank excluded. *)
Definition sumZ (l : list Z) : Z := foldr Z.add 0%Z l.
Definition manhattan (W : nat) (goalpos : nat → nat) (l : list nat) : Z :=
  sumZ (imap (λ i t, if decide (t = 0) then 0%Z else tdist W goalpos t i) l).

(** The same tiles at the same places and the same blank; what is stored at the blank does not
    count. *)
Definition same (s s' : state) : Prop :=
  b s = b s' ∧ hval s = hval s' ∧ length (ts s) = length (ts s') ∧
  ∀ i, i ≠ b s → ts s !! i = ts s' !! i.

(** ** Lists *)

Lemma sumZ_imap_insert (f : nat → nat → Z) l i x y :
  l !! i = Some y → sumZ (imap f (<[i:=x]> l)) = (sumZ (imap f l) - f i y + f i x)%Z.
Proof.
  revert f i. induction l as [|z l IH]; intros f [|i] Hi; simplify_eq/=; [lia|].
  rewrite (IH (f ∘ S) i Hi). simpl. lia.
Qed.

Lemma sumZ_imap_nonneg (f : nat → nat → Z) l :
  (∀ i t, 0 ≤ f i t)%Z → (0 ≤ sumZ (imap f l))%Z.
Proof.
  revert f. induction l as [|z l IH]; intros f Hf; simpl; [done|].
  pose proof (Hf 0 z). pose proof (IH (f ∘ S) (λ i t, Hf (S i) t)). lia.
Qed.

Lemma sumZ_imap_zero (f : nat → nat → Z) l :
  (∀ i t, 0 ≤ f i t)%Z →
  (sumZ (imap f l) = 0%Z ↔ ∀ i t, l !! i = Some t → f i t = 0%Z).
Proof.
  revert f. induction l as [|z l IH]; intros f Hf; simpl.
  - split; [done|]. done.
  - pose proof (Hf 0 z) as H0. pose proof (sumZ_imap_nonneg (f ∘ S) l (λ i t, Hf (S i) t)).
    specialize (IH (f ∘ S) (λ i t, Hf (S i) t)). split.
    + intros Hs [|i] t Ht; simplify_eq/=; [lia|]. apply IH; [lia|done].
    + intros Ha. assert (sumZ (imap (f ∘ S) l) = 0%Z) as ->.
      { apply IH. intros i t Ht. apply (Ha (S i) t Ht). }
      rewrite (Ha 0 z eq_refl). done.
Qed.

Lemma swap_perm {A} (l : list A) i j x y :
  i ≠ j → l !! i = Some x → l !! j = Some y → <[j:=x]> (<[i:=y]> l) ≡ₚ l.
Proof.
  intros Hij Hi Hj. apply Permutation_inj.
  assert (i < length l) by by eapply lookup_lt_Some.
  assert (j < length l) by by eapply lookup_lt_Some.
  split; [by rewrite !insert_length|].
  exists (λ z, if decide (z = i) then j else if decide (z = j) then i else z).
  split.
  - intros u v. repeat case_decide; congruence.
  - intros z. destruct (decide (z = j)) as [->|Hzj].
    + rewrite list_lookup_insert by (rewrite insert_length; done).
      repeat case_decide; congruence.
    + rewrite list_lookup_insert_ne by done. destruct (decide (z = i)) as [->|Hzi].
      * by rewrite list_lookup_insert.
      * by rewrite list_lookup_insert_ne.
Qed.

Lemma canon_lookup s i : b s < length (ts s) →
  canon s !! i = if decide (i = b s) then Some 0 else ts s !! i.
Proof.
  intros Hb. unfold canon. case_decide as Hi; [subst; by apply list_lookup_insert|].
  by apply list_lookup_insert_ne.
Qed.

Section tiles.
Set Default Proof Using "All".
Context (W H : nat) (goalpos : nat → nat) (HW : 0 < W).
Notation n := (ntiles W H).
Notation mvs := (mvs W H).
Notation mkedge := (mkedge W H goalpos).
Notation mh := (manhattan W goalpos).
Notation td := (tdist W goalpos).

(** ** The moves *)

Lemma div_split i : i = W * (i / W) + i mod W ∧ i mod W < W.
Proof. split; [apply Nat.div_mod; lia|apply Nat.mod_upper_bound; lia]. Qed.

Lemma cell r c : c < W → (W * r + c) / W = r ∧ (W * r + c) mod W = c.
Proof.
  intros Hc. pose proof (Nat.div_mod_unique W r ((W * r + c) / W) c ((W * r + c) mod W) Hc) as Hu.
  destruct Hu as [Hu1 Hu2]; [apply Nat.mod_upper_bound; lia|apply Nat.div_mod; lia|]. done.
Qed.

Lemma row_lt i : i < n → i / W < H.
Proof. intros Hi. apply Nat.div_lt_upper_bound; [lia|exact Hi]. Qed.

Lemma adjacent_sym i j : adjacent W i j → adjacent W j i.
Proof. unfold adjacent. lia. Qed.
Lemma adjacent_ne i j : adjacent W i j → i ≠ j.
Proof. intros Ha ->. unfold adjacent in Ha. lia. Qed.

Lemma mvs_adjacent i j : i < n → j ∈ mvs i ↔ j < n ∧ adjacent W i j.
Proof.
  intros Hi. destruct (div_split i) as [Ei Hci]. destruct (div_split j) as [Ej Hcj].
  pose proof (row_lt i Hi) as Hr. unfold adjacent.
  set (r := i / W) in *. set (c := i mod W) in *. set (r' := j / W) in *. set (c' := j mod W) in *.
  assert (Hup : ∀ k, W * S k = W * k + W) by (intros; lia).
  unfold Model.mvs. fold c. rewrite !elem_of_app.
  assert (Hif : ∀ (P : Prop) (dP : Decision P) (x : nat), j ∈ (if decide P then [x] else []) ↔ P ∧ j = x).
  { intros P dP x. case_decide; [rewrite elem_of_list_singleton; tauto|]. rewrite elem_of_nil. tauto. }
  rewrite !Hif. split.
  - intros [[Hc ->]|[[Hc ->]|[[Hc ->]|[Hc ->]]]].
    + split; [lia|]. right. destruct r as [|r0]; [lia|]. rewrite Hup in Ei.
      destruct (cell r0 c Hci) as [E1 E2]. replace (W * r0 + c) with (i - W) in * by lia.
      subst r' c'. rewrite E1, E2. lia.
    + split; [lia|]. left. destruct (cell r (c - 1)) as [E1 E2]; [lia|].
      replace (W * r + (c - 1)) with (i - 1) in * by lia. subst r' c'. rewrite E1, E2. lia.
    + assert (W * S r ≤ W * H) by (apply Nat.mul_le_mono_l; lia). rewrite Hup in *.
      split; [unfold ntiles; lia|]. left. destruct (cell r (c + 1)) as [E1 E2]; [lia|].
      replace (W * r + (c + 1)) with (i + 1) in * by lia. subst r' c'. rewrite E1, E2. lia.
    + split; [lia|]. right. destruct (cell (S r) c Hci) as [E1 E2]. rewrite Hup in *.
      replace (W * r + W + c) with (i + W) in * by lia. subst r' c'. rewrite E1, E2. lia.
  - intros [Hj [[Hrr [Hcc|Hcc]]|[Hcc [Hrr|Hrr]]]].
    + right. left. rewrite <-Hrr in Ej. lia.
    + right. right. left. rewrite <-Hrr in Ej. lia.
    + left. rewrite Hrr, Hup in Ei. lia.
    + right. right. right. rewrite Hrr, Hup in Ej. split; [|lia]. lia.
Qed.

Lemma tdist_step t i j : adjacent W i j → Z.abs (td t i - td t j) = 1%Z.
Proof. unfold adjacent, tdist. lia. Qed.

Lemma md_Some t i : 1 ≤ t < n → i < n → md W H goalpos t i = Some (td t i).
Proof. intros Ht Hi. unfold md. rewrite decide_True by lia. done. Qed.

(** ** States *)

(** A state as the program keeps it: every tile is there once, the blank at [b]. *)
Definition wf (s : state) : Prop :=
  b s < length (ts s) ∧ canon s ≡ₚ seq 0 n ∧ hval s = mh (canon s).

Lemma wf_len s : wf s → length (ts s) = n.
Proof.
  intros (_ & Hp & _). apply Permutation_length in Hp. rewrite seq_length in Hp.
  unfold canon in Hp. by rewrite insert_length in Hp.
Qed.

Lemma perm_elem (l : list nat) i t : l ≡ₚ seq 0 n → l !! i = Some t → t < n.
Proof.
  intros Hp Hi. apply elem_of_list_lookup_2 in Hi. rewrite Hp in Hi. apply elem_of_seq in Hi. lia.
Qed.
Lemma perm_inj (l : list nat) i j t : l ≡ₚ seq 0 n → l !! i = Some t → l !! j = Some t → i = j.
Proof.
  intros Hp. apply NoDup_lookup. rewrite Hp. apply NoDup_seq.
Qed.

Lemma same_wf s s' : same s s' → wf s → wf s'.
Proof.
  intros (Hb & Hh & Hl & Ho) (H1 & H2 & H3).
  assert (Hc : canon s' = canon s).
  { apply list_eq. intros i. rewrite !canon_lookup by lia. rewrite Hb. case_decide; [done|].
    symmetry. apply Ho. congruence. }
  split; [lia|]. rewrite Hc. split; [done|]. congruence.
Qed.

Lemma same_canon s s' : wf s → wf s' → canon s = canon s' → same s s'.
Proof.
  intros Hs Hs' Hc. pose proof Hs as (H1 & H2 & H3). pose proof Hs' as (H1' & H2' & H3').
  assert (b s = b s') as Hb.
  { apply (perm_inj (canon s) _ _ 0 H2).
    - rewrite canon_lookup by done. by rewrite decide_True.
    - rewrite Hc, canon_lookup by done. by rewrite decide_True. }
  split; [done|]. split; [by rewrite H3, H3', Hc|].
  split; [by rewrite (wf_len s), (wf_len s')|].
  intros i Hi. assert (canon s !! i = canon s' !! i) as He by by rewrite Hc.
  rewrite !canon_lookup in He by done. by rewrite !decide_False in He by congruence.
Qed.

(** ** One move *)

Lemma move s p : wf s → p < n → adjacent W (b s) p →
  ∃ t e, canon s !! p = Some t ∧ 1 ≤ t < n ∧ mkedge s (Z.of_nat p) = Some e ∧
    e_cost e = 1%Z ∧ e_revop e = Z.of_nat (b s) ∧ e_oldh e = hval s ∧
    ts (e_state e) = <[b s := t]> (ts s) ∧ b (e_state e) = p ∧
    canon (e_state e) = <[p := 0]> (<[b s := t]> (canon s)) ∧
    hval (e_state e) = (hval s + (td t (b s) - td t p))%Z ∧ wf (e_state e).
Proof.
  intros Hwf Hp Hadj. pose proof Hwf as (H1 & H2 & H3). pose proof (wf_len s Hwf) as Hlen.
  pose proof (adjacent_ne _ _ Hadj) as Hne.
  destruct (lookup_lt_is_Some_2 (ts s) p) as [t Ht]; [lia|].
  assert (Hct : canon s !! p = Some t) by (rewrite canon_lookup by done; by rewrite decide_False).
  assert (Hc0 : canon s !! b s = Some 0) by (rewrite canon_lookup by done; by rewrite decide_True).
  assert (Htn : t < n) by by apply (perm_elem (canon s) p).
  assert (Ht0 : t ≠ 0).
  { intros ->. apply Hne. by apply (perm_inj (canon s) _ _ 0). }
  destruct (lookup_lt_is_Some_2 (ts s) (b s)) as [junk Hjunk]; [lia|].
  set (s' := State (<[b s:=t]> (ts s)) p (hval s + (td t (b s) - td t p))).
  exists t, (Edge 1 (Z.of_nat (b s)) s' (hval s)).
  assert (Hcan : canon s' = <[p := 0]> (<[b s := t]> (canon s))).
  { unfold canon. simpl. by rewrite list_insert_insert. }
  split_and!; try done.
  - lia.
  - unfold Model.mkedge, Ident. rewrite decide_False by lia. rewrite decide_False by lia.
    rewrite Nat2Z.id, Ht. cbn [mbind option_bind]. rewrite Hjunk. cbn [mbind option_bind].
    unfold incr. rewrite decide_True.
    2:{ split_and!; [lia|done|done|]. apply mvs_adjacent; [done|]. split; [lia|by apply adjacent_sym]. }
    rewrite !md_Some by lia. done.
  - split; [|split].
    + simpl. rewrite insert_length. lia.
    + change (canon s' ≡ₚ seq 0 n). rewrite Hcan. rewrite swap_perm; done.
    + change (hval s' = mh (canon s')). rewrite Hcan. simpl. unfold manhattan.
      erewrite sumZ_imap_insert by (rewrite list_lookup_insert_ne; done).
      erewrite sumZ_imap_insert by done.
      rewrite !(decide_True (P:=0 = 0)) by done. rewrite !(decide_False (P:=t = 0)) by done.
      rewrite H3. unfold manhattan. lia.
Qed.

Lemma operators_elem s op : wf s →
  op ∈ operators W H s ↔ ∃ p, op = Z.of_nat p ∧ p < n ∧ adjacent W (b s) p.
Proof.
  intros Hwf. pose proof (wf_len s Hwf). unfold operators. rewrite elem_of_list_fmap.
  assert (b s < n) by (destruct Hwf; lia). split.
  - intros (p & -> & Hp). exists p. split; [done|]. by apply mvs_adjacent.
  - intros (p & -> & Hp). exists p. split; [done|]. by apply mvs_adjacent.
Qed.

(** What the program reaches from the initial board [init]: it makes edges with applicable
    operators (or Ident), destroys them, packs and unpacks. *)
Inductive reached (init : list nat) : state → Prop :=
  | reached_init s : initialstate W H goalpos init = Some s → reached init s
  | reached_edge s op e : reached init s → op ∈ Ident :: operators W H s →
      mkedge s op = Some e → reached init (e_state e)
  | reached_undo s op e s' : reached init s → op ∈ Ident :: operators W H s →
      mkedge s op = Some e → rmedge e = Some s' → reached init s'
  | reached_unpack s s' : n ≤ 16 → reached init s →
      unpack W H goalpos (pack s) = Some s' → reached init s'.

Lemma mkedge_ident s : mkedge s Ident = Some (Edge 1 Ident s (hval s)).
Proof. unfold Model.mkedge. by rewrite decide_True. Qed.

Lemma undo s p e : wf s → p < n → adjacent W (b s) p → mkedge s (Z.of_nat p) = Some e →
  ∃ s', rmedge e = Some s' ∧ same s s' ∧ wf s'.
Proof.
  intros Hwf Hp Hadj He. pose proof (wf_len s Hwf) as Hlen. pose proof Hwf as (H1 & _).
  destruct (move s p Hwf Hp Hadj) as (t & e' & Hct & Ht & He' & Hc & Hr & Hoh & Hts & Hb & _ & _ & _).
  rewrite He in He'. injection He' as <-.
  pose proof (adjacent_ne _ _ Hadj) as Hne.
  assert (Htp : ts s !! p = Some t).
  { rewrite canon_lookup in Hct by done. by rewrite decide_False in Hct. }
  set (s' := State (<[p := t]> (<[b s := t]> (ts s))) (b s) (hval s)).
  assert (Hsame : same s s').
  { split; [done|]. split; [done|]. simpl. rewrite !insert_length. split; [done|].
    intros i Hi. destruct (decide (i = p)) as [->|].
    - rewrite list_lookup_insert by (rewrite insert_length; lia). done.
    - by rewrite !list_lookup_insert_ne by done. }
  exists s'. split; [|split; [done|by eapply same_wf]].
  unfold rmedge. rewrite Hr, Hoh, Hts, Hb. unfold Ident. rewrite !decide_False by lia.
  rewrite Nat2Z.id. rewrite list_lookup_insert by lia. cbn [mbind option_bind].
  rewrite list_lookup_insert_ne by done. rewrite Htp. done.
Qed.

(** ** Packing *)

Definition val (l : list nat) : Z := fold_left (λ w t, w * 16 + Z.of_nat t)%Z l 0%Z.

Lemma lor_digit w t : (0 ≤ w → 0 ≤ t < 16 → Z.lor (w * 16) t = w * 16 + t)%Z.
Proof.
  intros Hw Ht. symmetry. apply Z.add_nocarry_lor. apply Z.bits_inj'. intros i Hi.
  rewrite Z.land_spec, Z.bits_0. change 16%Z with (2 ^ 4)%Z in *.
  destruct (decide (i < 4)%Z) as [Hlt|Hge].
  - by rewrite Z.mul_pow2_bits_low.
  - assert (Z.testbit t i = false) as ->; [|by rewrite andb_false_r].
    destruct (decide (t = 0)%Z) as [->|Hne]; [apply Z.bits_0|].
    apply Z.bits_above_log2; [lia|]. apply Z.log2_lt_pow2; [lia|].
    eapply Z.lt_le_trans; [apply Ht|]. apply Z.pow_le_mono_r; lia.
Qed.

Lemma val_snoc l t : val (l ++ [t]) = (val l * 16 + Z.of_nat t)%Z.
Proof. unfold val. by rewrite fold_left_app. Qed.

Lemma val_bound l : Forall (λ t, t < 16) l → (0 ≤ val l < 16 ^ Z.of_nat (length l))%Z.
Proof.
  induction l as [|t l IH] using rev_ind; intros Hl; [done|].
  apply Forall_app in Hl as [Hl Ht]. apply Forall_cons_1 in Ht as [Ht _]. specialize (IH Hl).
  rewrite val_snoc, app_length. simpl. rewrite Nat2Z.inj_add, Z.pow_add_r by lia. simpl.
  change (16 ^ Z.of_nat 1)%Z with 16%Z.
  set (P := (16 ^ Z.of_nat (length l))%Z) in *. lia.
Qed.

Lemma pack64_val l : Forall (λ t, t < 16) l → length l ≤ 16 → pack64 l = val l.
Proof.
  induction l as [|t l IH] using rev_ind; intros Hl Hlen; [done|].
  apply Forall_app in Hl as [Hl Ht]. apply Forall_cons_1 in Ht as [Ht _].
  rewrite app_length in Hlen. simpl in Hlen.
  rewrite val_snoc. unfold pack64 in *. rewrite fold_left_app. simpl. rewrite IH by (done || lia).
  pose proof (val_bound l Hl) as Hb.
  assert (16 ^ Z.of_nat (length l) ≤ 16 ^ 15)%Z by (apply Z.pow_le_mono_r; lia).
  change (2 ^ 64 - 1)%Z with (Z.ones 64). rewrite Z.land_ones by lia.
  rewrite Z.shiftl_mul_pow2 by lia. change (2 ^ 4)%Z with 16%Z. rewrite Z.mod_small.
  - apply lor_digit; lia.
  - split; [lia|]. change (16 ^ 15)%Z with 1152921504606846976%Z in *.
    change (2 ^ 64)%Z with 18446744073709551616%Z. lia.
Qed.

Lemma unpack_from_val l acc bl h :
  Forall (λ t, t < n) l → length l ≤ n → n ≤ 16 →
  ∃ bl', unpack_from W H goalpos (length l) (val l) acc bl h =
      Some (l ++ acc, bl', h + mh l)%Z ∧
    (0 ∉ l → bl' = bl) ∧
    (∀ j, l !! j = Some 0 → (∀ k, l !! k = Some 0 → k = j) → bl' = Z.of_nat j).
Proof.
  intros Hl Hlen Hn. revert acc bl h. induction l as [|t l IH] using rev_ind; intros acc bl h.
  - exists bl. split_and!; [simpl; f_equal; f_equal; unfold manhattan; simpl; lia|done|done].
  - apply Forall_app in Hl as [Hl Ht]. apply Forall_cons_1 in Ht as [Ht _].
    rewrite app_length, Nat.add_1_r in *. cbn [length] in *.
    specialize (IH Hl ltac:(lia)). rewrite val_snoc. cbn [unpack_from].
    assert (Forall (λ t, t < 16) l) as Hl16 by (eapply Forall_impl; [exact Hl|]; simpl; lia).
    pose proof (val_bound l Hl16) as Hb.
    assert (E1 : Z.to_nat (Z.land (val l * 16 + Z.of_nat t) 15) = t).
    { change 15%Z with (Z.ones 4). rewrite Z.land_ones by lia. change (2 ^ 4)%Z with 16%Z.
      rewrite Z.add_comm, Z.mod_add, Z.mod_small by lia. lia. }
    assert (E2 : Z.shiftr (val l * 16 + Z.of_nat t) 4 = val l).
    { rewrite Z.shiftr_div_pow2 by lia. change (2 ^ 4)%Z with 16%Z.
      rewrite Z.div_add_l by lia. rewrite Z.div_small by lia. lia. }
    rewrite E1, E2.
    assert (Hm : mh (l ++ [t]) =
      (mh l + if decide (t = 0%nat) then 0 else td t (length l))%Z).
    { unfold manhattan. rewrite imap_app. simpl. rewrite Nat.add_0_r.
      induction (imap _ l) as [|z zs IHz]; simpl; [lia|]. rewrite IHz. lia. }
    case_decide as Ht0.
    + subst t. destruct (IH (0 :: acc) (Z.of_nat (length l)) h) as (bl' & -> & Hb1 & Hb2).
      exists bl'. rewrite Hm, Z.add_0_r. split_and!; [by rewrite <-app_assoc|set_solver|].
      intros j Hj Hu. assert (length l = j) as <-.
      { apply Hu. by rewrite lookup_app_r, Nat.sub_diag by lia. }
      apply Hb1. intros (k & Hk)%elem_of_list_lookup_1.
      pose proof (lookup_lt_Some _ _ _ Hk). assert (k = length l); [|lia].
      apply Hu. by apply lookup_app_l_Some.
    + rewrite md_Some by lia. cbn [mbind option_bind].
      destruct (IH (t :: acc) bl (h + td t (length l))%Z) as (bl' & -> & Hb1 & Hb2).
      exists bl'. rewrite Hm. split_and!.
      * rewrite <-app_assoc. simpl. do 2 f_equal. lia.
      * intros Hz. apply Hb1. set_solver.
      * intros j Hj Hu. apply Hb2.
        -- apply lookup_app_Some in Hj as [Hj|[_ Hj]]; [done|].
           apply list_lookup_singleton_Some in Hj as [_ Hj]. done.
        -- intros k Hk. apply Hu. by apply lookup_app_l_Some.
Qed.

Lemma unpack_pack s : n ≤ 16 → wf s →
  ∃ s', unpack W H goalpos (pack s) = Some s' ∧ same s s' ∧ wf s'.
Proof.
  intros Hn Hwf. pose proof Hwf as (H1 & H2 & H3). pose proof (wf_len s Hwf) as Hlen.
  assert (Hl : length (canon s) = n) by (unfold canon; by rewrite insert_length).
  assert (Hall : Forall (λ t, t < n) (canon s)).
  { apply Forall_lookup. intros i t Ht. by apply (perm_elem (canon s) i). }
  assert (Hall16 : Forall (λ t, t < 16) (canon s)) by (eapply Forall_impl; [exact Hall|]; simpl; lia).
  destruct (unpack_from_val (canon s) [] (-1) 0 Hall) as (bl & Hu & _ & Hb); [lia|done|].
  assert (bl = Z.of_nat (b s)) as ->.
  { apply Hb; [rewrite canon_lookup by done; by rewrite decide_True|].
    intros k Hk. apply (perm_inj (canon s) _ _ 0 H2 Hk).
    rewrite canon_lookup by done. by rewrite decide_True. }
  set (s' := State (canon s) (b s) (mh (canon s))).
  assert (Hsame : same s s').
  { split_and!; [done|simpl; lia|simpl; lia|]. intros i Hi. simpl.
    rewrite canon_lookup by done. by rewrite decide_False. }
  exists s'. split; [|split; [done|by eapply same_wf]].
  unfold unpack, pack. rewrite pack64_val by (done || lia). rewrite <-Hl at 1. rewrite Hu.
  cbn [mbind option_bind]. rewrite decide_False by lia. rewrite Nat2Z.id, app_nil_r. done.
Qed.

(** ** The initial state *)

Lemma init_from_spec l : ∀ k bl h, Forall (λ t, t < n) l → k + length l ≤ n →
  ∃ bl', init_from W H goalpos k l bl h =
      Some (bl', h + sumZ (imap (λ i t, if decide (t = 0%nat) then 0 else td t (k + i)%nat) l))%Z ∧
    (0 ∉ l → bl' = bl) ∧
    (∀ j, l !! j = Some 0 → (∀ i, l !! i = Some 0 → i = j) → bl' = Some (k + j)).
Proof.
  induction l as [|t l IH]; intros k bl h Hl Hk.
  - exists bl. split_and!; [simpl; f_equal; f_equal; lia|done|done].
  - apply Forall_cons in Hl as [Ht Hl]. simpl in Hk.
    assert (Himap : imap ((λ i t0, if decide (t0 = 0) then 0%Z else td t0 (k + i)) ∘ S) l =
      imap (λ i t0, if decide (t0 = 0) then 0%Z else td t0 (S k + i)) l).
    { apply imap_ext. intros i x _. simpl. by rewrite Nat.add_succ_r. }
    cbn [init_from]. simpl. rewrite Himap, Nat.add_0_r. case_decide as Ht0.
    + subst t. destruct (IH (S k) (Some k) h Hl ltac:(lia)) as (bl' & -> & Hb1 & Hb2).
      exists bl'. split_and!; [done|set_solver|].
      intros j Hj Hu. assert (0 = j) as <- by by apply Hu. rewrite Nat.add_0_r. apply Hb1.
      intros (i & Hi)%elem_of_list_lookup_1. by specialize (Hu (S i) Hi).
    + rewrite md_Some by lia. cbn [mbind option_bind].
      destruct (IH (S k) bl (h + td t k)%Z Hl ltac:(lia)) as (bl' & -> & Hb1 & Hb2).
      exists bl'. split_and!.
      * f_equal. f_equal. lia.
      * intros Hz. apply Hb1. set_solver.
      * intros [|j] Hj Hu; simplify_eq/=. rewrite Nat.add_succ_r. apply (Hb2 j Hj).
        intros i Hi. specialize (Hu (S i) Hi). lia.
Qed.

Lemma initial_wf init : init ≡ₚ seq 0 n → 0 < n →
  ∃ s, initialstate W H goalpos init = Some s ∧ canon s = init ∧ wf s.
Proof.
  intros Hp Hn. assert (Hlen : length init = n) by (rewrite Hp; apply seq_length).
  assert (Hall : Forall (λ t, t < n) init).
  { apply Forall_lookup. intros i t Ht. by apply (perm_elem init i). }
  assert (H0 : 0 ∈ init) by (rewrite Hp; apply elem_of_seq; lia).
  apply elem_of_list_lookup_1 in H0 as [j Hj].
  destruct (init_from_spec init 0 None 0 Hall) as (bl & Hi & _ & Hb); [lia|].
  rewrite (Hb j Hj) in Hi by (intros i Hi'; by apply (perm_inj init _ _ 0)).
  unfold initialstate. rewrite Hi. cbn [mbind option_bind Nat.add].
  assert (Hc : ∀ h, canon (State init j h) = init) by (intros h; by apply list_insert_id).
  eexists. split; [done|]. split; [apply Hc|]. split; [|rewrite Hc; split; [done|simpl; done]].
  by eapply lookup_lt_Some.
Qed.

Lemma reached_wf init s : init ≡ₚ seq 0 n → 0 < n → reached init s → wf s.
Proof.
  intros Hp Hn. induction 1 as [s Hi|s op e Hr IH Hop He|s op e s' Hr IH Hop He Hu|s s' Hn16 Hr IH Hu].
  - destruct (initial_wf init Hp Hn) as (s' & Hi' & _ & Hwf). congruence.
  - apply elem_of_cons in Hop as [->|Hop].
    + rewrite mkedge_ident in He. by injection He as <-.
    + apply operators_elem in Hop as (p & -> & Hpn & Hadj); [|done].
      destruct (move s p IH Hpn Hadj) as (t & e' & Hm). destruct_and! Hm. congruence.
  - apply elem_of_cons in Hop as [->|Hop].
    + rewrite mkedge_ident in He. injection He as <-. unfold rmedge in Hu. simpl in Hu.
      congruence.
    + apply operators_elem in Hop as (p & -> & Hpn & Hadj); [|done].
      destruct (undo s p e IH Hpn Hadj He) as (s'' & Hu' & _ & Hwf). congruence.
  - destruct (unpack_pack s Hn16 IH) as (s'' & Hu' & _ & Hwf). congruence.
Qed.
End tiles.

(** ** C47 *)

(** From any state the program can reach: every applicable operator gives an edge; destroying it
    restores the state; the reverse operator is applicable at the successor and leads back. *)
Theorem C47_moves_undone W H goalpos init s op :
  0 < W → 0 < H → init ≡ₚ seq 0 (ntiles W H) → reached W H goalpos init s →
  op ∈ operators W H s →
  ∃ e, mkedge W H goalpos s op = Some e ∧ ¬ same s (e_state e) ∧
    (∃ s', rmedge e = Some s' ∧ same s s') ∧
    e_revop e ∈ operators W H (e_state e) ∧
    ∃ e', mkedge W H goalpos (e_state e) (e_revop e) = Some e' ∧ e_revop e' = op ∧
      same s (e_state e').
Proof.
  intros HW HH Hp Hr Hop. assert (0 < ntiles W H) as Hn by (unfold ntiles; lia).
  pose proof (reached_wf W H goalpos HW init s Hp Hn Hr) as Hwf.
  apply (operators_elem W H goalpos HW) in Hop as (p & -> & Hpn & Hadj); [|done].
  destruct (move W H goalpos HW s p Hwf Hpn Hadj) as
    (t & e & Hct & Ht & He & Hc & Hrev & Hoh & Hts & Hb & Hcan & Hh & Hwf').
  pose proof (adjacent_ne W H goalpos HW _ _ Hadj) as Hne.
  pose proof Hwf as (Hbl & Hperm & _). pose proof (wf_len W H goalpos HW s Hwf) as Hlen.
  assert (Hbn : b s < ntiles W H) by lia.
  exists e. split; [done|]. split; [intros [Hbb _]; congruence|].
  split.
  { destruct (undo W H goalpos HW s p e Hwf Hpn Hadj He) as (s' & ? & ? & _). eauto. }
  rewrite Hrev. split.
  { apply (operators_elem W H goalpos HW); [done|]. exists (b s). split; [done|]. split; [done|].
    rewrite Hb. by apply (adjacent_sym W H goalpos HW). }
  destruct (move W H goalpos HW (e_state e) (b s) Hwf' Hbn) as
    (t' & e' & Hct' & Ht' & He' & Hc' & Hrev' & Hoh' & Hts' & Hb' & Hcan' & Hh' & Hwf'').
  { rewrite Hb. by apply (adjacent_sym W H goalpos HW). }
  exists e'. split; [done|]. split; [by rewrite Hrev', Hb|].
  apply (same_canon W H goalpos HW); [done..|].
  assert (t' = t) as ->.
  { rewrite Hcan, list_lookup_insert_ne, list_lookup_insert in Hct'; [congruence| |done].
    unfold canon. rewrite insert_length. lia. }
  rewrite Hcan', Hcan, Hb. symmetry. apply list_eq. intros i.
  assert (Hcb : canon s !! b s = Some 0) by (by rewrite canon_lookup, decide_True).
  assert (length (canon s) = ntiles W H) as Hcl by (unfold canon; by rewrite insert_length).
  destruct (decide (i = b s)) as [->|Hib].
  - rewrite list_lookup_insert by (rewrite !insert_length; lia). done.
  - rewrite list_lookup_insert_ne by done. destruct (decide (i = p)) as [->|Hip].
    + rewrite list_lookup_insert by (rewrite !insert_length; lia). done.
    + by rewrite !list_lookup_insert_ne by done.
Qed.

(** ** C48 *)

Theorem C48_manhattan_exact W H goalpos init s :
  0 < W → 0 < H → init ≡ₚ seq 0 (ntiles W H) → reached W H goalpos init s →
  hval s = manhattan W goalpos (canon s).
Proof.
  intros HW HH Hp Hr. assert (0 < ntiles W H) as Hn by (unfold ntiles; lia).
  by destruct (reached_wf W H goalpos HW init s Hp Hn Hr) as (_ & _ & ?).
Qed.

Theorem C48_changes_by_one W H goalpos init s op e :
  0 < W → 0 < H → init ≡ₚ seq 0 (ntiles W H) → reached W H goalpos init s →
  op ∈ operators W H s → mkedge W H goalpos s op = Some e →
  (hval (e_state e) = hval s + 1 ∨ hval (e_state e) = hval s - 1)%Z.
Proof.
  intros HW HH Hp Hr Hop He. assert (0 < ntiles W H) as Hn by (unfold ntiles; lia).
  pose proof (reached_wf W H goalpos HW init s Hp Hn Hr) as Hwf.
  apply (operators_elem W H goalpos HW) in Hop as (p & -> & Hpn & Hadj); [|done].
  destruct (move W H goalpos HW s p Hwf Hpn Hadj) as (t & e' & Hm). destruct_and! Hm.
  pose proof (tdist_step W H goalpos HW t _ _ Hadj). assert (e' = e) as -> by congruence. lia.
Qed.

Lemma tdist_zero W goalpos t i : 0 < W → tdist W goalpos t i = 0%Z ↔ goalpos t = i.
Proof.
  intros HW. unfold tdist. split.
  - intros Hz. rewrite (Nat.div_mod (goalpos t) W), (Nat.div_mod i W) by lia.
    assert (i / W = goalpos t / W) as -> by lia. assert (i mod W = goalpos t mod W) as -> by lia. done.
  - intros ->. lia.
Qed.

Lemma manhattan_zero W goalpos l : 0 < W →
  manhattan W goalpos l = 0%Z ↔ ∀ i t, l !! i = Some t → t ≠ 0 → goalpos t = i.
Proof.
  intros HW. unfold manhattan. rewrite sumZ_imap_zero.
  - split.
    + intros Ha i t Hi Ht. specialize (Ha i t Hi). simpl in Ha. rewrite decide_False in Ha by done.
      by apply (tdist_zero W goalpos t i HW).
    + intros Ha i t Hi. simpl. case_decide as Ht; [done|]. apply tdist_zero; [done|]. by apply Ha.
  - intros i t. case_decide; [done|]. unfold tdist. lia.
Qed.

Theorem C48_zero_exactly_at_goal W H goalpos init s :
  0 < W → 0 < H → init ≡ₚ seq 0 (ntiles W H) → reached W H goalpos init s →
  (isgoal s = true ↔ ∀ i t, canon s !! i = Some t → t ≠ 0 → goalpos t = i) ∧
  ((∀ t u, t < ntiles W H → u < ntiles W H → goalpos t = goalpos u → t = u) →
   (∀ t, t < ntiles W H → goalpos t < ntiles W H) →
   (isgoal s = true ↔ ∀ t, t < ntiles W H → canon s !! goalpos t = Some t)).
Proof.
  intros HW HH Hp Hr. assert (0 < ntiles W H) as Hn by (unfold ntiles; lia).
  pose proof (reached_wf W H goalpos HW init s Hp Hn Hr) as Hwf.
  pose proof Hwf as (Hb & Hperm & Hh). pose proof (wf_len W H goalpos HW s Hwf) as Hlen.
  assert (Hcl : length (canon s) = ntiles W H) by (unfold canon; by rewrite insert_length).
  assert (Hg : isgoal s = true ↔ ∀ i t, canon s !! i = Some t → t ≠ 0 → goalpos t = i).
  { unfold isgoal. rewrite bool_decide_eq_true, Hh. by apply manhattan_zero. }
  split; [done|]. intros Hinj Hbnd. rewrite Hg. split.
  - intros Ha t Ht. destruct (lookup_lt_is_Some_2 (canon s) (goalpos t)) as [u Hu].
    { rewrite Hcl. by apply Hbnd. }
    destruct (decide (t = 0)) as [->|Ht0].
    + destruct (decide (u = 0)) as [->|Hu0]; [done|]. exfalso. apply Hu0.
      apply Hinj; [|done|by apply Ha]. by apply (perm_elem W H goalpos HW (canon s) (goalpos 0)).
    + assert (t ∈ canon s) as (i & Hi)%elem_of_list_lookup_1.
      { rewrite Hperm. apply elem_of_seq. lia. }
      by rewrite (Ha i t Hi Ht0).
  - intros Ha i t Hi Ht0. assert (Htn : t < ntiles W H) by by apply (perm_elem W H goalpos HW (canon s) i).
    apply (perm_inj W H goalpos HW (canon s) _ _ t); [done|by apply Ha|done].
Qed.

(** Applying the operators [os] one after the other leads from [s] to [s']. *)
Inductive run (W H : nat) (goalpos : nat → nat) : state → list Z → state → Prop :=
  | run_nil s : run W H goalpos s [] s
  | run_cons s op e os s' : op ∈ operators W H s → mkedge W H goalpos s op = Some e →
      run W H goalpos (e_state e) os s' → run W H goalpos s (op :: os) s'.

Theorem C48_lower_bound W H goalpos init s os s' :
  0 < W → 0 < H → init ≡ₚ seq 0 (ntiles W H) → reached W H goalpos init s →
  run W H goalpos s os s' → isgoal s' = true → (hval s ≤ Z.of_nat (length os))%Z.
Proof.
  intros HW HH Hp Hr Hrun Hg. induction Hrun as [s|s op e os s' Hop He Hrun IH].
  - apply bool_decide_eq_true in Hg. simpl. lia.
  - assert (reached W H goalpos init (e_state e)) as Hr'.
    { eapply reached_edge; [exact Hr| |exact He]. set_solver. }
    specialize (IH Hr' Hg).
    pose proof (C48_changes_by_one W H goalpos init s op e HW HH Hp Hr Hop He). simpl. lia.
Qed.

(** ** C49 *)

Theorem C49_pack_faithful W H goalpos init s s2 :
  0 < W → 0 < H → ntiles W H ≤ 16 → init ≡ₚ seq 0 (ntiles W H) →
  reached W H goalpos init s → reached W H goalpos init s2 →
  (∃ s', unpack W H goalpos (pack s) = Some s' ∧ same s s') ∧
  (pack s = pack s2 ↔ same s s2) ∧ (0 ≤ pack s < 2 ^ 64)%Z.
Proof.
  intros HW HH H16 Hp Hr Hr2. assert (0 < ntiles W H) as Hn by (unfold ntiles; lia).
  pose proof (reached_wf W H goalpos HW init s Hp Hn Hr) as Hwf.
  pose proof (reached_wf W H goalpos HW init s2 Hp Hn Hr2) as Hwf2.
  destruct (unpack_pack W H goalpos HW s H16 Hwf) as (s' & Hu & Hs & Hwf').
  destruct (unpack_pack W H goalpos HW s2 H16 Hwf2) as (s2' & Hu2 & Hs2 & Hwf2').
  split; [eauto|]. split; [split|].
  - intros He. rewrite He, Hu2 in Hu. injection Hu as ->.
    destruct Hs as (A1 & A2 & A3 & A4), Hs2 as (B1 & B2 & B3 & B4).
    split_and!; [congruence..|]. intros i Hi. rewrite A4, B4 by congruence. done.
  - intros (A1 & A2 & A3 & A4). unfold pack. f_equal. apply list_eq. intros i.
    rewrite !canon_lookup by (apply Hwf || apply Hwf2). rewrite A1. case_decide; [done|].
    apply A4. congruence.
  - pose proof (wf_len W H goalpos HW s Hwf) as Hlen. pose proof Hwf as (_ & Hperm & _).
    assert (Hall : Forall (λ t, t < 16) (canon s)).
    { apply Forall_lookup. intros i t Ht.
      pose proof (perm_elem W H goalpos HW (canon s) i t Hperm Ht). lia. }
    assert (Hcl : length (canon s) = ntiles W H) by (unfold canon; by rewrite insert_length).
    unfold pack. rewrite (pack64_val W H goalpos HW) by (done || lia).
    pose proof (val_bound W H goalpos HW _ Hall) as Hb.
    assert (16 ^ Z.of_nat (length (canon s)) ≤ 16 ^ 16)%Z by (apply Z.pow_le_mono_r; lia).
    change (2 ^ 64)%Z with (16 ^ 16)%Z. lia.
Qed.

Lemma state_eqb_wf W H goalpos s s2 :
  0 < W → wf W H goalpos s → wf W H goalpos s2 → state_eqb W H s s2 = true ↔ same s s2.
Proof.
  intros HW Hwf Hwf2.
  pose proof (wf_len W H goalpos HW s Hwf) as Hlen. pose proof (wf_len W H goalpos HW s2 Hwf2) as Hlen2.
  unfold state_eqb. rewrite andb_true_iff, bool_decide_eq_true, forallb_forall. split.
  - intros [Hb Ha]. apply (same_canon W H goalpos HW); [done..|]. apply list_eq. intros i.
    rewrite !canon_lookup by (apply Hwf || apply Hwf2). rewrite <-Hb. case_decide as Hi; [done|].
    destruct (decide (i < ntiles W H)) as [Hin|Hin].
    + specialize (Ha i). rewrite <-elem_of_list_In in Ha. specialize (Ha ltac:(apply elem_of_seq; lia)).
      rewrite (bool_decide_eq_false_2 (i = b s)) in Ha by done.
      destruct (bool_decide (ts s !! i = ts s2 !! i)) eqn:E; [by apply bool_decide_eq_true in E|done].
    + rewrite !lookup_ge_None_2 by lia. done.
  - intros (A1 & A2 & A3 & A4). split; [done|]. intros i _.
    destruct (decide (i = b s)) as [->|Hi].
    + rewrite (bool_decide_eq_true_2 (b s = b s)) by done. by rewrite andb_false_r.
    + rewrite (bool_decide_eq_true_2 (ts s !! i = ts s2 !! i)) by (by apply A4). done.
Qed.

(** The program's own comparison of states agrees. *)
Theorem C49_state_eq W H goalpos init s s2 :
  0 < W → 0 < H → init ≡ₚ seq 0 (ntiles W H) →
  reached W H goalpos init s → reached W H goalpos init s2 →
  state_eqb W H s s2 = true ↔ same s s2.
Proof.
  intros HW HH Hp Hr Hr2. assert (0 < ntiles W H) as Hn by (unfold ntiles; lia).
  apply (state_eqb_wf W H goalpos); [done|by eapply reached_wf..].
Qed.

(** ** Examples *)

Definition ex_init : list nat := [1; 0; 2; 3; 4; 5; 6; 7; 8].
Example ex_init_perm : ex_init ≡ₚ seq 0 (ntiles 3 3).
Proof. vm_compute. apply perm_swap. Qed.
Example ex_reached : ∃ s, reached 3 3 id ex_init s ∧ hval s = 2%Z ∧
  canon s = [1; 4; 2; 3; 0; 5; 6; 7; 8] ∧ operators 3 3 s = [1; 3; 5; 7]%Z.
Proof.
  eexists. split; [|split; [|split]].
  - eapply (reached_edge _ _ _ _ (State [1; 0; 2; 3; 4; 5; 6; 7; 8] 1 1) 4%Z).
    + apply reached_init. vm_compute. reflexivity.
    + vm_compute. set_solver.
    + vm_compute. reflexivity.
  - done.
  - done.
  - done.
Qed.
Example ex_pack : unpack 3 3 id (pack (State [1; 4; 2; 3; 4; 5; 6; 7; 8] 4 2)) =
  Some (State [1; 4; 2; 3; 0; 5; 6; 7; 8] 4 2).
Proof. vm_compute. done. Qed.
Example ex_goal : isgoal (State [1; 1; 2; 3; 4; 5; 6; 7; 8] 0 0) = true.
Proof. done. Qed.

Print Assumptions C47_moves_undone.
Print Assumptions C48_manhattan_exact.
Print Assumptions C48_changes_by_one.
Print Assumptions C48_zero_exactly_at_goal.
Print Assumptions C48_lower_bound.
Print Assumptions C49_pack_faithful.
Print Assumptions C49_state_eq.
