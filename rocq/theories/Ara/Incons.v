(** The two hash tables of search/arastar.hpp, the closed list and the table [mem] inside Incons, thread
    their chains through the same field of a node (closedent, arastar.hpp:25, 34-36, 84 and 324-325).
    What adding a node of the closed list to Incons does to the closed list.

    Simplification: as long as neither table grows (closedlist.hpp:57-58), which with the 30000001 bins of
    arastar.hpp:89-90 means until 10000000 nodes are stored. *)
From stdpp Require Import prelude.
From Coq Require Import ZArith Lia ZifyBool ZifyNat.
From Verif.Hash Require Import Model Proofs.

Section incons.
Context {K : Type} (key : nat → K) (hash : K → nat) (eqk : K → K → bool).
Notation H := (λ e, hash (key e)).

(** The members closed and incons.mem, and the closedent.nxt of every node. *)
Record two := Two { c_fill : nat; c_bins : list (option nat); m_fill : nat; m_bins : list (option nat); lk : nat → option nat }.
Definition closed_of (s : two) : table := Tbl (c_fill s) (c_bins s) (lk s).
Definition mem_of (s : two) : table := Tbl (m_fill s) (m_bins s) (lk s).
Definition with_closed (s : two) (t : table) : two := Two (fill t) (bins t) (m_fill s) (m_bins s) (nxt t).
Definition with_mem (s : two) (t : table) : two := Two (c_fill s) (c_bins s) (fill t) (bins t) (nxt t).

(** arastar.hpp:89-90: both tables have the same number of bins. *)
Definition tables (n : nat) (nx : nat → option nat) : two := Two 0 (replicate n None) 0 (replicate n None) nx.

(** closed.find and closed.add, arastar.hpp:283 and 306. *)
Definition closed_find (fuel : nat) (s : two) (k : K) : option (option nat) := find key hash eqk fuel (closed_of s) k.
Definition closed_add (fuel : nat) (s : two) (e : nat) : option two :=
  t ← add key hash 3 fuel (closed_of s) e; Some (with_closed s t).

(** Incons::add, arastar.hpp:67-72. *)
Definition incons_add (fuel : nat) (s : two) (e : nat) : option two :=
  r ← find key hash eqk fuel (mem_of s) (key e);
  match r with
  | Some _ => Some s
  | None => t ← add key hash 3 fuel (mem_of s) e; Some (with_mem s t)
  end.

(** arastar.hpp:139-140 and 78-81, 260: both tables are cleared between two iterations. *)
Definition both_clear (s : two) : two :=
  Two 0 (replicate (length (c_bins s)) None) 0 (replicate (length (m_bins s)) None) (lk s).

(** The states reached by the calls ARA-star makes: a new node is added to the closed list if it is not there
    (arastar.hpp:283-306), a node found there may be added to Incons (296); neither table is full enough
    to grow. [used] are the nodes that were ever added. *)
Inductive reach (n : nat) : list nat → two → Prop :=
| reach_new nx : reach n [] (tables n nx)
| reach_add used s s' fuel e :
    reach n used s → e ∉ used → c_fill s * 3 < n → closed_find fuel s (key e) = Some None →
    closed_add fuel s e = Some s' → reach n (e :: used) s'
| reach_incons used s s' fuel k e :
    reach n used s → m_fill s * 3 < n → closed_find fuel s k = Some (Some e) →
    incons_add fuel s e = Some s' → reach n used s'
| reach_clear used s : reach n used s → reach n used (both_clear s).

(** The nodes of a bucket, in order. *)
Definition bucket (b : list (option nat)) (nx : nat → option nat) (i : nat) (l : list nat) : Prop :=
  ∃ p, b !! i = Some p ∧ chain nx p l.

(** ** The invariant *)

Record shape (n : nat) (used : list nat) (s : two) : Prop := {
  sh_clen : length (c_bins s) = n;
  sh_mlen : length (m_bins s) = n;
  sh_c : ∀ i, i < n → ∃ l, bucket (c_bins s) (lk s) i l ∧ NoDup l ∧ (∀ e, e ∈ l → H e mod n = i ∧ e ∈ used);
  sh_m : ∀ i, i < n → ∃ l, bucket (m_bins s) (lk s) i l ∧ NoDup l ∧ (∀ e, e ∈ l → H e mod n = i ∧ e ∈ used) }.

Lemma chain_det nx p l l' : chain nx p l → chain nx p l' → l = l'.
Proof.
  revert p l'. induction l as [|e l IH]; intros p l' H1 H2.
  - simpl in H1. subst p. symmetry. by eapply chain_nil.
  - destruct H1 as [-> H1]. destruct l' as [|e' l']; [done|]. destruct H2 as [[= <-] H2]. f_equal. by eapply IH.
Qed.
Lemma bucket_det b nx i l l' : bucket b nx i l → bucket b nx i l' → l = l'.
Proof. intros (p & Hp & H1) (p' & Hp' & H2). simplify_eq. by eapply chain_det. Qed.

Lemma chain_split nx p l1 e l2 : chain nx p (l1 ++ e :: l2) → chain nx (nx e) l2.
Proof.
  revert p. induction l1 as [|x l1 IH]; intros p; simpl.
  - by intros [_ Hc].
  - intros [_ Hc]. by eapply IH.
Qed.

(** Following the links from a node gives one list only. *)
Lemma chain_meet nx p q l1 e l2 m x :
  chain nx p (l1 ++ e :: l2) → chain nx q m → x ∈ l1 → x ∈ m → e ∈ m.
Proof.
  intros Hc Hm (a & b & ->)%elem_of_list_split (c & d & ->)%elem_of_list_split.
  rewrite <- app_assoc in Hc. simpl in Hc. apply chain_split in Hc. apply chain_split in Hm.
  rewrite <- (chain_det _ _ _ _ Hc Hm). set_solver.
Qed.

Lemma chain_redirect nx p q l1 e l2 m :
  chain nx p (l1 ++ e :: l2) → e ∉ l1 → e ∉ m → chain nx q m → chain (upd nx e q) p (l1 ++ e :: m).
Proof.
  intros Hc He1 Hem Hm. revert p Hc. induction l1 as [|x l1 IH]; intros p; simpl.
  - intros [-> _]. split; [done|]. rewrite upd_same. by apply chain_upd.
  - intros [-> Hc]. split; [done|]. rewrite upd_other by set_solver. apply IH; [set_solver|done].
Qed.

Lemma find_bucket fuel t k i l n :
  length (bins t) = n → n ≠ 0 → hash k mod n = i → bucket (bins t) (nxt t) i l →
  length l ≤ fuel → find key hash eqk fuel t k = Some (first key eqk k l).
Proof.
  intros Hl Hn Hi (p & Hp & Hc) Hf. unfold find. rewrite decide_False by lia.
  rewrite Hl, Hi, Hp. simpl. by apply walk_spec.
Qed.

(** Whatever the fuel, a find that ends gives the first node of the bucket with the key. *)
Lemma walk_first fuel nx p k l r : chain nx p l → walk key eqk fuel nx p k = Some r → r = first key eqk k l.
Proof.
  revert fuel p. induction l as [|e l IH]; intros fuel p Hc Hw.
  - simpl in Hc. subst p. destruct fuel; simpl in *; congruence.
  - destruct Hc as [-> Hc]. simpl. destruct fuel as [|fuel]; simpl in Hw.
    + destruct (eqk (key e) k); congruence.
    + destruct (eqk (key e) k); [congruence|]. by eapply IH.
Qed.
Lemma find_first fuel t k i l n r :
  length (bins t) = n → hash k mod n = i → bucket (bins t) (nxt t) i l →
  find key hash eqk fuel t k = Some r → r = first key eqk k l.
Proof.
  intros Hl Hi (p & Hp & Hc). unfold find. case_decide; [done|]. rewrite Hl, Hi, Hp. simpl. by apply walk_first.
Qed.

Hypothesis eqk_eq : ∀ a b, eqk a b = true ↔ a = b.

Lemma add_link fuel t e n :
  length (bins t) = n → fill t * 3 < n →
  ∃ p, bins t !! (H e mod n) = Some p ∧
    add key hash 3 fuel t e = Some (Tbl (fill t + 1) (<[H e mod n := Some e]> (bins t)) (upd (nxt t) e p)).
Proof.
  intros Hl Hf. unfold add. rewrite decide_False by lia. simpl. unfold link. rewrite decide_False by lia.
  destruct (lookup_lt_is_Some_2 (bins t) (H e mod length (bins t))) as [p Hp].
  { apply Nat.mod_upper_bound. lia. }
  exists p. rewrite Hl in Hp |- *. split; [done|]. simpl in Hp. by rewrite Hp.
Qed.

Lemma shape_new n nx : shape n [] (tables n nx).
Proof.
  split; simpl; try apply replicate_length; intros i Hi; exists []; split_and!.
  - exists None. split; [by apply lookup_replicate_2|done].
  - constructor.
  - by intros e ?%elem_of_nil.
  - exists None. split; [by apply lookup_replicate_2|done].
  - constructor.
  - by intros e ?%elem_of_nil.
Qed.

Lemma shape_clear n used s : shape n used s → shape n used (both_clear s).
Proof.
  intros [Hc Hm _ _]. split; simpl; rewrite ?replicate_length; try done; intros i Hi; exists []; split_and!.
  - exists None. split; [apply lookup_replicate_2; congruence|done].
  - constructor.
  - by intros e ?%elem_of_nil.
  - exists None. split; [apply lookup_replicate_2; congruence|done].
  - constructor.
  - by intros e ?%elem_of_nil.
Qed.

Lemma bucket_upd b nx e q i l : e ∉ l → bucket b nx i l → bucket b (upd nx e q) i l.
Proof. intros He (p & Hp & Hc). exists p. split; [done|]. by apply chain_upd. Qed.

Lemma shape_add n used s s' fuel e :
  shape n used s → e ∉ used → c_fill s * 3 < n → closed_add fuel s e = Some s' → shape n (e :: used) s'.
Proof.
  intros [Hcl Hml Hc Hm] He Hf Ha. unfold closed_add in Ha.
  destruct (add_link fuel (closed_of s) e n Hcl Hf) as (p & Hp & E). rewrite E in Ha. simpl in Ha.
  apply (inj Some) in Ha as <-. simpl in Hp. split; simpl.
  - by rewrite insert_length.
  - done.
  - intros i Hi. destruct (Hc i Hi) as (l & Hb & Hnd & Hin).
    assert (e ∉ l) as Hel by (intros Hel; by apply Hin in Hel as [_ Hel]).
    destruct (decide (H e mod n = i)) as [Hd|Hd].
    + exists (e :: l). split_and!.
      * exists (Some e). split; [rewrite Hd; apply list_lookup_insert; lia|]. split; [done|].
        rewrite upd_same. destruct Hb as (q & Hq & Hch). simpl in Hd. rewrite Hd in Hp. simplify_eq.
        by apply chain_upd.
      * by apply NoDup_cons.
      * intros x [->|Hx]%elem_of_cons; [split; [done|by left]|]. destruct (Hin _ Hx). split; [done|by right].
    + exists l. split_and!; [|done|].
      * destruct (bucket_upd _ _ e p _ _ Hel Hb) as (q & Hq & Hch). exists q.
        split; [by rewrite list_lookup_insert_ne|done].
      * intros x Hx. destruct (Hin _ Hx). split; [done|by right].
  - intros i Hi. destruct (Hm i Hi) as (l & Hb & Hnd & Hin).
    assert (e ∉ l) as Hel by (intros Hel; by apply Hin in Hel as [_ Hel]).
    exists l. split_and!; [by apply bucket_upd|done|].
    intros x Hx. destruct (Hin _ Hx). split; [done|by right].
Qed.

Lemma first_in k l e : first key eqk k l = Some e → e ∈ l ∧ key e = k.
Proof. intros Hf. apply first_Some in Hf as [He Hk]. by apply eqk_eq in Hk. Qed.

(** Adding a node of a closed bucket to Incons puts the mem bucket behind it. *)
Lemma incons_add_buckets n used s s' fuel e l1 l2 m :
  shape n used s → m_fill s * 3 < n →
  bucket (c_bins s) (lk s) (H e mod n) (l1 ++ e :: l2) → bucket (m_bins s) (lk s) (H e mod n) m →
  incons_add fuel s e = Some s' →
  (∃ x, x ∈ m ∧ key x = key e ∧ s' = s) ∨
  ((∀ x, x ∈ m → key x ≠ key e) ∧ c_bins s' = c_bins s ∧ c_fill s' = c_fill s ∧
   bucket (c_bins s') (lk s') (H e mod n) (l1 ++ e :: m) ∧ NoDup (l1 ++ e :: m) ∧
   bucket (m_bins s') (lk s') (H e mod n) (e :: m) ∧ length (m_bins s') = n ∧
   (∀ x, x ≠ e → lk s' x = lk s x) ∧ (∀ i, i ≠ H e mod n → m_bins s' !! i = m_bins s !! i)).
Proof.
  intros [Hcl Hml Hc Hm] Hf Hb Hbm Ha. unfold incons_add in Ha.
  assert (H e mod n < n) as Hi by (apply Nat.mod_upper_bound; lia).
  destruct (find key hash eqk fuel (mem_of s) (key e)) as [r|] eqn:Er; [|done]. simpl in Ha.
  apply (find_first fuel (mem_of s) (key e) (H e mod n) m n r Hml eq_refl Hbm) in Er.
  destruct r as [x|].
  { left. symmetry in Er. apply first_in in Er as [Hx Hk]. exists x. split_and!; [done..|]. congruence. }
  right. symmetry in Er. assert (∀ x, x ∈ m → key x ≠ key e) as Hno.
  { intros x Hx Hk. apply (first_None key eqk _ _ Er) in Hx. apply eqk_eq in Hk. congruence. }
  split; [done|].
  destruct (add_link fuel (mem_of s) e n Hml Hf) as (p & Hp & E). rewrite E in Ha. simpl in Ha.
  apply (inj Some) in Ha as <-. simpl in *.
  assert (e ∉ m) as Hem by (intros He; by apply Hno in He).
  destruct (Hc _ Hi) as (l & Hbl & Hnd & _). rewrite (bucket_det _ _ _ _ _ Hbl Hb) in Hnd.
  destruct (Hm _ Hi) as (l' & Hbl' & Hnd' & _). rewrite (bucket_det _ _ _ _ _ Hbl' Hbm) in Hnd'.
  destruct Hb as (q & Hq & Hch). destruct Hbm as (q' & Hq' & Hch'). simpl in Hp. simplify_eq.
  apply NoDup_app in Hnd as (Hn1 & Hdis & Hn2). apply NoDup_cons in Hn2 as [He2 Hn2].
  assert (e ∉ l1) as He1 by (intros He; apply (Hdis _ He); by left).
  split_and!; [done|done| | | |by rewrite insert_length| |].
  - exists q. split; [done|]. by apply chain_redirect with l2.
  - apply NoDup_app. split_and!; [done| |by apply NoDup_cons].
    intros x Hx [->|Hxm]%elem_of_cons; [done|]. apply Hem. by eapply chain_meet.
  - exists (Some e). split; [apply list_lookup_insert; lia|]. split; [done|]. rewrite upd_same. by apply chain_upd.
  - intros x Hx. by apply upd_other.
  - intros i Hne. by rewrite list_lookup_insert_ne.
Qed.

Lemma shape_incons n used s s' fuel k e :
  shape n used s → m_fill s * 3 < n → closed_find fuel s k = Some (Some e) →
  incons_add fuel s e = Some s' → shape n used s'.
Proof.
  intros Hs Hf Hfind Ha.
  assert (hash k mod n < n) as Hi by (apply Nat.mod_upper_bound; lia).
  destruct (sh_c _ _ _ Hs _ Hi) as (l & Hb & Hnd & Hin).
  pose proof (find_first fuel (closed_of s) k _ l n _ (sh_clen _ _ _ Hs) eq_refl Hb Hfind) as Hfi.
  symmetry in Hfi. apply first_in in Hfi as [Hel Hk]. subst k.
  destruct (sh_m _ _ _ Hs _ Hi) as (m & Hbm & Hndm & Hinm).
  pose proof Hel as (l1 & l2 & ->)%elem_of_list_split.
  destruct (incons_add_buckets n used s s' fuel e l1 l2 m Hs Hf Hb Hbm Ha)
    as [(x & Hx & Hxk & ->)|(Hno & Hcb & _ & Hb' & Hnd' & Hbm' & Hml & Hlk & Hmo)]; [done|].
  destruct Hs as [Hcl _ Hc Hm]. split.
  - by rewrite Hcb.
  - done.
  - intros i Hin'. destruct (decide (i = H e mod n)) as [->|Hne].
    + eexists. split_and!; [done|done|]. intros x Hx. apply elem_of_app in Hx as [Hx|Hx].
      * apply Hin. set_solver.
      * apply elem_of_cons in Hx as [->|Hx]; [apply Hin; set_solver|by apply Hinm].
    + destruct (Hc i Hin') as (li & (p & Hp & Hch) & Hndi & Hini). exists li. split_and!; [|done|done].
      exists p. rewrite Hcb. split; [done|]. eapply chain_ext; [|done].
      intros x Hx. apply Hlk. intros ->. by apply Hini in Hx as [Hx _].
  - intros i Hin'. destruct (decide (i = H e mod n)) as [->|Hne].
    + exists (e :: m). split_and!; [done| |].
      * apply NoDup_cons. split; [|done]. intros He. by apply Hno in He.
      * intros x [->|Hx]%elem_of_cons; [apply Hin; set_solver|by apply Hinm].
    + destruct (Hm i Hin') as (li & (p & Hp & Hch) & Hndi & Hini). exists li. split_and!; [|done|done].
      exists p. rewrite Hmo by done. split; [done|]. eapply chain_ext; [|done].
      intros x Hx. apply Hlk. intros ->. by apply Hini in Hx as [Hx _].
Qed.

Lemma reach_shape n used s : reach n used s → shape n used s.
Proof.
  induction 1.
  - apply shape_new.
  - by eapply shape_add.
  - by eapply shape_incons.
  - by apply shape_clear.
Qed.

(** ** C79 *)

(** In every state the calls of ARA-star lead to, every bucket of the closed list is a finite list of
    different nodes of that bucket: looking up a key ends. *)
Theorem C79_find_ends n used s k :
  reach n used s → n ≠ 0 → ∃ fuel r, closed_find fuel s k = Some r.
Proof.
  intros Hr Hn. apply reach_shape in Hr.
  assert (hash k mod n < n) as Hi by (by apply Nat.mod_upper_bound).
  destruct (sh_c _ _ _ Hr _ Hi) as (l & Hb & _ & _).
  exists (length l), (first key eqk k l). by eapply (find_bucket _ (closed_of s)); [apply Hr|..].
Qed.

(** A node that is added to Incons takes the nodes behind it in its bucket out of the closed list, and puts the
    nodes that Incons has in the same bucket in their place. *)
Theorem C79_incons_add n used s s' fuel e l1 l2 m :
  reach n used s → m_fill s * 3 < n →
  bucket (c_bins s) (lk s) (hash (key e) mod n) (l1 ++ e :: l2) →
  bucket (m_bins s) (lk s) (hash (key e) mod n) m →
  (∀ x, x ∈ m → key x ≠ key e) →
  incons_add fuel s e = Some s' →
  bucket (c_bins s') (lk s') (hash (key e) mod n) (l1 ++ e :: m) ∧
  (∀ i l, i < n → i ≠ hash (key e) mod n → bucket (c_bins s) (lk s) i l → bucket (c_bins s') (lk s') i l).
Proof.
  intros Hr Hf Hb Hbm Hno Ha. apply reach_shape in Hr.
  destruct (incons_add_buckets n used s s' fuel e l1 l2 m Hr Hf Hb Hbm Ha)
    as [(x & Hx & Hxk & _)|(_ & Hcb & _ & Hb' & Hnd' & Hbm' & Hml & Hlk & Hmo)].
  { by apply Hno in Hx. }
  split; [done|]. intros i l Hi Hne Hbi. destruct (sh_c _ _ _ Hr i Hi) as (li & Hbl & _ & Hini).
  rewrite (bucket_det _ _ _ _ _ Hbl Hbi) in *. destruct Hbi as (p & Hp & Hch).
  exists p. rewrite Hcb. split; [done|]. eapply chain_ext; [|done].
  intros x Hx. apply Hlk. intros ->. apply Hini in Hx as [Hx _]. congruence.
Qed.

(** In particular: a closed node behind it which has never been inconsistent is found before, and never after. *)
Theorem C79_lost n used s s' fuel e x l1 l2 l3 m :
  reach n used s → m_fill s * 3 < n →
  bucket (c_bins s) (lk s) (hash (key e) mod n) (l1 ++ e :: l2 ++ x :: l3) →
  bucket (m_bins s) (lk s) (hash (key e) mod n) m →
  (∀ y, y ∈ l1 ++ e :: l2 ++ l3 → key y ≠ key x) → (∀ y, y ∈ m → key y ≠ key x ∧ key y ≠ key e) →
  incons_add fuel s e = Some s' →
  (∃ f0, ∀ f, f0 ≤ f → closed_find f s (key x) = Some (Some x)) ∧
  (∃ f0, ∀ f, f0 ≤ f → closed_find f s' (key x) = Some None) ∧
  (∀ f r, closed_find f s' (key x) = Some r → r = None).
Proof.
  intros Hr Hf Hb Hbm Hdiff Hm Ha.
  destruct (C79_incons_add n used s s' fuel e l1 (l2 ++ x :: l3) m Hr Hf Hb Hbm) as [Hb' _]; [|done|].
  { intros y Hy. by destruct (Hm y Hy). }
  assert (shape n used s) as Hs by by apply reach_shape.
  assert (n ≠ 0) as Hn by lia.
  assert (H x mod n = H e mod n) as Hxe.
  { assert (H e mod n < n) as Hi by (by apply Nat.mod_upper_bound).
    destruct (sh_c _ _ _ Hs _ Hi) as (l & Hbl & _ & Hin). rewrite (bucket_det _ _ _ _ _ Hbl Hb) in Hin.
    apply Hin. set_solver. }
  assert (length (c_bins s') = n) as Hcl'.
  { assert (c_bins s' = c_bins s) as ->; [|apply Hs]. unfold incons_add in Ha.
    destruct (find key hash eqk fuel (mem_of s) (key e)) as [[z|]|]; simpl in Ha; try done; [congruence|].
    destruct (add key hash 3 fuel (mem_of s) e); [|done]. simpl in Ha. apply (inj Some) in Ha as <-. done. }
  assert (first key eqk (key x) (l1 ++ e :: l2 ++ x :: l3) = Some x) as E1.
  { assert (∀ a b, (∀ y, y ∈ a → key y ≠ key x) → first key eqk (key x) (a ++ x :: b) = Some x) as Hfi.
    { intros a b. induction a as [|y a IH]; intros Hy; simpl.
      - by rewrite (proj2 (eqk_eq _ _)).
      - destruct (eqk (key y) (key x)) eqn:Ey; [|apply IH; set_solver].
        apply eqk_eq in Ey. exfalso. apply (Hy y); [by left|done]. }
    replace (l1 ++ e :: l2 ++ x :: l3) with ((l1 ++ e :: l2) ++ x :: l3) by by rewrite <- app_assoc.
    apply Hfi. intros y Hy. apply Hdiff. set_solver. }
  assert (first key eqk (key x) (l1 ++ e :: m) = None) as E2.
  { destruct (first key eqk (key x) (l1 ++ e :: m)) as [y|] eqn:Ey; [|done].
    apply first_in in Ey as [Hy Hyk]. exfalso. apply elem_of_app in Hy as [Hy|Hy].
    - apply (Hdiff y); [set_solver|done].
    - apply elem_of_cons in Hy as [->|Hy]; [apply (Hdiff e); [set_solver|done]|by apply Hm in Hy as [Hy _]]. }
  split_and!.
  - eexists. intros f Hle. unfold closed_find.
    rewrite (find_bucket f (closed_of s) (key x) (H e mod n) _ n (sh_clen _ _ _ Hs) Hn Hxe Hb Hle). by rewrite E1.
  - eexists. intros f Hle. unfold closed_find.
    rewrite (find_bucket f (closed_of s') (key x) (H e mod n) _ n Hcl' Hn Hxe Hb' Hle). by rewrite E2.
  - intros f r Hfr. rewrite (find_first f (closed_of s') (key x) _ _ n r Hcl' Hxe Hb' Hfr). by rewrite E2.
Qed.

End incons.

(** ** An instance: the states 0 and 16 share a bucket of the 16; state 16 becomes inconsistent; state 0 is then
    unknown and a second node, 100, is made for it. *)
Definition ex_key (e : nat) : nat := if decide (e = 100) then 0 else e.
Notation ex_find s k := (closed_find ex_key id Nat.eqb 5 s k).
Notation ex_add s e := (closed_add ex_key id 5 s e).
Notation ex_incons s e := (incons_add ex_key id Nat.eqb 5 s e).

Example incons_run :
  (s ← ex_add (tables 16 (λ _, None)) 0; s ← ex_add s 16; a ← ex_find s 0;
   s ← ex_incons s 16; b ← ex_find s 0; c ← ex_find s 16;
   s ← ex_add s 100; d ← ex_find s 0; Some (a, b, c, d)) = Some (Some 0, None, Some 16, Some 100).
Proof. vm_compute. done. Qed.

(** The hypotheses of [C79_lost] hold on it. *)
Definition ex_s1 : two := Two 1 (Some 0 :: replicate 15 None) 0 (replicate 16 None) (upd (λ _, None) 0 None).
Definition ex_s2 : two := Two 2 (Some 16 :: replicate 15 None) 0 (replicate 16 None) (upd (lk ex_s1) 16 (Some 0)).
Definition ex_s3 : two :=
  Two 2 (Some 16 :: replicate 15 None) 1 (Some 16 :: replicate 15 None) (upd (lk ex_s2) 16 None).

Lemma ex_step1 : ex_add (tables 16 (λ _, None)) 0 = Some ex_s1.
Proof. vm_compute. reflexivity. Qed.
Lemma ex_step2 : ex_add ex_s1 16 = Some ex_s2.
Proof. vm_compute. reflexivity. Qed.
Lemma ex_step3 : ex_incons ex_s2 16 = Some ex_s3.
Proof. vm_compute. reflexivity. Qed.

Example incons_lost :
  reach ex_key id Nat.eqb 16 [16; 0] ex_s2 ∧ m_fill ex_s2 * 3 < 16 ∧
  bucket (c_bins ex_s2) (lk ex_s2) (16 mod 16) ([] ++ 16 :: [] ++ 0 :: []) ∧
  bucket (m_bins ex_s2) (lk ex_s2) (16 mod 16) [] ∧ ex_incons ex_s2 16 = Some ex_s3.
Proof.
  split_and!.
  - refine (reach_add _ _ _ 16 [0] ex_s1 ex_s2 5 16 _ _ _ _ ex_step2).
    + refine (reach_add _ _ _ 16 [] _ ex_s1 5 0 (reach_new _ _ _ 16 (λ _, None)) _ _ _ ex_step1).
      * apply not_elem_of_nil.
      * cbn. lia.
      * vm_compute. reflexivity.
    + set_solver.
    + cbn. lia.
    + vm_compute. reflexivity.
  - cbn. lia.
  - exists (Some 16). split; [reflexivity|]. vm_compute. auto.
  - exists None. split; reflexivity.
  - apply ex_step3.
Qed.

Print Assumptions C79_find_ends.
Print Assumptions C79_incons_add.
Print Assumptions C79_lost.
