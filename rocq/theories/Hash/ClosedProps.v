(** Properties C11, C12 and C13: ClosedList (search/closedlist.hpp). *)
From stdpp Require Import prelude.
From Coq Require Import Lia.
From Verif.Common Require Import Fuel.
From Verif.Hash Require Import Model Proofs.

(** closedlist.hpp:23. *)
Definition Fillfact := 3.

Section props.
Context {K : Type} (key : nat → K) (hash : K → nat) (eqk : K → K → bool).
(** State equality (PackedState::eq) is an equivalence that the hash respects. *)
Hypothesis eqk_refl : ∀ a, eqk a a = true.
Hypothesis eqk_sym : ∀ a b, eqk a b = true → eqk b a = true.
Hypothesis eqk_trans : ∀ a b c, eqk a b = true → eqk b c = true → eqk a c = true.
Hypothesis hash_compat : ∀ a b, eqk a b = true → hash a = hash b.

(** Histories of a closed list created with a size hint of at least 1; the list
    holds the nodes added and not removed.  A node is only added if no node with
    an equal state is in the list. *)
Inductive reach : table → list nat → Prop :=
  | reach_new sz nx : 1 ≤ sz → reach (new sz nx) []
  | reach_add t C e t' :
      reach t C → (∀ x, x ∈ C → eqk (key x) (key e) = false) →
      ends (λ n, add key hash Fillfact n t e) t' → reach t' (e :: C)
  | reach_remove t C k e t' C' :
      reach t C → C ≡ₚ e :: C' → eqk (key e) k = true →
      ends (λ n, remove key hash eqk n t k) (t', Some e) → reach t' C'
  | reach_remove_none t C k t' :
      reach t C → ends (λ n, remove key hash eqk n t k) (t', None) → reach t' C
  | reach_clear t C : reach t C → reach (clear t) [].

(** Pairwise different states. *)
Definition distinct (C : list nat) : Prop :=
  ∀ x y, x ∈ C → y ∈ C → eqk (key x) (key y) = true → x = y.

Definition inv (t : table) (C : list nat) : Prop :=
  bins t ≠ [] ∧ distinct C ∧ ∃ cs, repr key hash t cs ∧ concat cs ≡ₚ C.

Lemma fresh_notin (C : list nat) e : (∀ x, x ∈ C → eqk (key x) (key e) = false) → e ∉ C.
Proof. intros H He. apply H in He. by rewrite eqk_refl in He. Qed.

Lemma add_ends t C e :
  inv t C → e ∉ C →
  ∃ t' cs', ends (λ n, add key hash Fillfact n t e) t' ∧ bins t' ≠ [] ∧
    repr key hash t' cs' ∧ concat cs' ≡ₚ e :: C.
Proof.
  intros (Hb & _ & cs & Hr & Hp) He.
  destruct (add_spec key hash Fillfact (length (concat cs)) t cs e Hr) as (t' & cs' & H1 & Hr' & Hp' & Hb');
    [by rewrite Hp|done|].
  exists t', cs'. split_and!; [|done|done|by rewrite Hp', Hp].
  exists (length (concat cs)). intros n Hn.
  destruct (add_spec key hash Fillfact n t cs e Hr) as (t2 & cs2 & H2 & _); [by rewrite Hp|done|].
  rewrite H2. f_equal.
  assert (∀ m m' b nx p r, move key hash m b nx p = Some r → m ≤ m' →
            move key hash m' b nx p = Some r) as Hmove.
  { clear. induction m as [|m IH]; intros [|m'] b nx [x|] r H Hm; simpl in *; try done; try lia.
    destruct (link b nx x _) as [[b1 nx1]|]; [|done]. simpl in *. apply (IH m'); [done|lia]. }
  assert (∀ m m' old b nx r, move_all key hash m b nx old = Some r → m ≤ m' →
            move_all key hash m' b nx old = Some r) as Hall.
  { clear -Hmove. intros m m' old. induction old as [|p old IH]; intros b nx r H Hm; [done|].
    simpl in *. destruct (move key hash m b nx p) as [[b1 nx1]|] eqn:E; [|done].
    rewrite (Hmove _ _ _ _ _ _ E Hm). simpl in *. by apply IH. }
  unfold add, resize in H1, H2. case_decide; [|congruence].
  destruct (move_all key hash (length (concat cs)) _ _ _) as [[b1 nx1]|] eqn:E; [|done].
  rewrite (Hall _ _ _ _ _ _ E Hn) in H2. congruence.
Qed.

Lemma find_ends t cs k :
  bins t ≠ [] → repr key hash t cs →
  ∃ o, ends (λ n, find key hash eqk n t k) o ∧
    match o with
    | Some e => e ∈ concat cs ∧ eqk (key e) k = true
    | None => ∀ e, e ∈ concat cs → eqk (key e) k = false
    end.
Proof.
  intros Hb Hr.
  destruct (find_spec key hash eqk hash_compat (length (concat cs)) t cs k Hr) as (o & H1 & H2 & H3);
    [done|done|].
  exists o. split.
  - exists (length (concat cs)). intros n Hn.
    assert (∀ m m' nx p r, walk key eqk m nx p k = Some r → m ≤ m' →
              walk key eqk m' nx p k = Some r) as Hwalk.
    { clear. induction m as [|m IH]; intros m' nx [x|] r H Hm; simpl in *; try done;
        destruct m' as [|m']; simpl; try lia; try done; destruct (eqk (key x) k); try done.
      apply IH; [done|lia]. }
    unfold find in *. case_decide; [done|]. destruct (bins t !! _) as [p|]; [|done].
    simpl in *. by eapply Hwalk.
  - destruct o; [by apply H2|by apply H3].
Qed.

Lemma remove_ends t cs k :
  bins t ≠ [] → repr key hash t cs →
  ∃ t' o cs', ends (λ n, remove key hash eqk n t k) (t', o) ∧ repr key hash t' cs' ∧ bins t' ≠ [] ∧
    match o with
    | Some e => eqk (key e) k = true ∧ concat cs ≡ₚ e :: concat cs'
    | None => (∀ e, e ∈ concat cs → eqk (key e) k = false) ∧ cs' = cs
    end.
Proof.
  intros Hb Hr.
  destruct (remove_spec key hash eqk hash_compat (length (concat cs)) t cs k Hr)
    as (t' & o & cs' & H1 & H2 & H3 & H4); [done|done|].
  exists t', o, cs'. split_and!; [|done..].
  exists (length (concat cs)). intros n Hn.
  assert (∀ m m' nx q p r, walk2 key eqk m nx q p k = Some r → m ≤ m' →
          walk2 key eqk m' nx q p k = Some r) as Hwalk.
  { clear. induction m as [|m IH]; intros m' nx q [x|] r H Hm; simpl in *; try done;
      destruct m' as [|m']; simpl; try lia; try done; destruct (eqk (key x) k); try done.
    apply IH; [done|lia]. }
  unfold remove in *. case_decide; [done|].
  destruct (bins t !! _) as [p|]; [|done]. cbn [mbind option_bind] in *.
  destruct (walk2 key eqk (length (concat cs)) (nxt t) p p k) as [[q o']|] eqn:E; [|done].
  rewrite (Hwalk _ _ _ _ _ _ E Hn). done.
Qed.

Lemma reach_inv t C : reach t C → inv t C.
Proof.
  induction 1 as [sz nx Hsz|t C e t' Hr IH He Ha
    |t C k e t' C' Hr IH HC Hk Hrm|t C k t' Hr IH Hrm|t C Hr IH].
  - split; [by destruct sz; [lia|]|]. split.
    { intros x y Hx. by apply elem_of_nil in Hx. }
    exists (replicate sz []). split; [apply new_repr|]. by rewrite concat_replicate_nil.
  - destruct (add_ends t C e IH (fresh_notin _ _ He)) as (t1 & cs1 & H1 & Hb & Hr1 & Hp1).
    rewrite (ends_det _ _ _ Ha H1). split; [done|]. split; [|by exists cs1].
    destruct IH as (_ & Hd & _).
    intros x y Hx Hy Heq. apply elem_of_cons in Hx, Hy.
    destruct Hx as [->|Hx], Hy as [->|Hy]; [done| | |by apply Hd].
    + apply eqk_sym in Heq. by rewrite He in Heq.
    + by rewrite He in Heq.
  - destruct IH as (Hb & Hd & cs & Hrp & Hp).
    destruct (remove_ends t cs k Hb Hrp) as (t1 & o & cs1 & H1 & Hr1 & Hb1 & Ho).
    pose proof (ends_det _ _ _ Hrm H1) as He. injection He as -> <-.
    destruct Ho as [_ Hp1].
    split; [done|]. split.
    + intros x y Hx Hy. apply Hd; rewrite HC; by right.
    + exists cs1. split; [done|]. rewrite Hp1, HC in Hp. by apply (inj (cons e)) in Hp.
  - destruct IH as (Hb & Hd & cs & Hrp & Hp).
    destruct (remove_ends t cs k Hb Hrp) as (t1 & o & cs1 & H1 & Hr1 & Hb1 & Ho).
    pose proof (ends_det _ _ _ Hrm H1) as He. injection He as -> <-.
    destruct Ho as [_ ->]. split; [done|]. split; [done|]. eauto.
  - destruct IH as (Hb & _). split; [by simpl; destruct (bins t)|]. split.
    { intros x y Hx. by apply elem_of_nil in Hx. }
    exists (replicate (length (bins t)) []). split; [apply clear_repr|].
    by rewrite concat_replicate_nil.
Qed.

(** ** C11 *)

(** add, find and remove terminate without undefined behaviour. *)
Theorem C11_closed_operations_terminate t C :
  reach t C →
  (∀ e, (∀ x, x ∈ C → eqk (key x) (key e) = false) → ∃ t', ends (λ n, add key hash Fillfact n t e) t') ∧
  (∀ k, ∃ o, ends (λ n, find key hash eqk n t k) o) ∧
  (∀ k, ∃ t' o, ends (λ n, remove key hash eqk n t k) (t', o)).
Proof.
  intros Hi%reach_inv. split_and!.
  - intros e He. destruct (add_ends t C e Hi (fresh_notin _ _ He)) as (t' & _ & H & _). eauto.
  - destruct Hi as (Hb & _ & cs & Hr & _). intros k.
    destruct (find_ends t cs k Hb Hr) as (o & H & _). eauto.
  - destruct Hi as (Hb & _ & cs & Hr & _). intros k.
    destruct (remove_ends t cs k Hb Hr) as (t' & o & _ & H & _). eauto.
Qed.

(** find returns the node with an equal state, if there is one. *)
Theorem C11_closed_find_exact t C k o :
  reach t C → ends (λ n, find key hash eqk n t k) o →
  (∀ e, o = Some e ↔ e ∈ C ∧ eqk (key e) k = true) ∧
  (o = None ↔ ∀ e, e ∈ C → eqk (key e) k = false).
Proof.
  intros (Hb & Hd & cs & Hr & Hp)%reach_inv Ho.
  destruct (find_ends t cs k Hb Hr) as (o' & H & Hspec).
  rewrite <-(ends_det _ _ _ Ho H) in Hspec. clear o' H.
  destruct o as [e|].
  - rewrite Hp in Hspec. destruct Hspec as [He Hk]. split.
    + intros e'. split; [by intros [= ->]|]. intros [He' Hk']. f_equal.
      apply Hd; [done..|]. eapply eqk_trans; [done|]. by apply eqk_sym.
    + split; [done|]. intros Hno. by rewrite Hno in Hk.
  - split.
    + intros e. split; [done|]. intros [He Hk]. rewrite <-Hp in He. by rewrite Hspec in Hk.
    + split; [|done]. intros _ e He. apply Hspec. by rewrite Hp.
Qed.

(** remove returns that node and leaves exactly the others. *)
Theorem C11_closed_remove_exact t C k t' o :
  reach t C → ends (λ n, remove key hash eqk n t k) (t', o) →
  (∀ e, o = Some e ↔ e ∈ C ∧ eqk (key e) k = true) ∧
  ∃ C', reach t' C' ∧ ∀ x, x ∈ C' ↔ x ∈ C ∧ o ≠ Some x.
Proof.
  intros Hreach Ho. pose proof (reach_inv _ _ Hreach) as (Hb & Hd & cs & Hr & Hp).
  destruct (remove_ends t cs k Hb Hr) as (t1 & o' & cs' & H & _ & _ & Hspec).
  pose proof (ends_det _ _ _ Ho H) as He. injection He as <- <-. clear H.
  destruct o as [e|].
  - destruct Hspec as [Hk Hp'].
    assert (C ≡ₚ e :: concat cs') as HC by by rewrite <-Hp, Hp'.
    assert (e ∈ C) as HeC by (rewrite HC; by left).
    split.
    + intros e'. split; [intros [= ->]; done|]. intros [He' Hk']. f_equal.
      apply Hd; [done..|]. eapply eqk_trans; [done|]. by apply eqk_sym.
    + exists (concat cs'). split; [by eapply reach_remove|]. intros x. rewrite HC, elem_of_cons.
      pose proof (r_nodup _ _ _ _ Hr) as Hnd. rewrite Hp' in Hnd.
      apply NoDup_cons in Hnd as [Hnd _]. split.
      * intros Hx. split; [by right|]. intros [= ->]. done.
      * intros [[->|Hx] Hne]; done.
  - destruct Hspec as [Hno _]. split.
    + intros e. split; [done|]. intros [He Hk]. rewrite <-Hp in He. by rewrite Hno in Hk.
    + exists C. split; [by eapply reach_remove_none|]. intros x. split; [done|tauto].
Qed.

(** getFill is the number of nodes. *)
Theorem C11_closed_fill_exact t C : reach t C → fill t = length C ∧ NoDup C.
Proof.
  intros (Hb & _ & cs & Hr & Hp)%reach_inv. split.
  - rewrite (r_fill _ _ _ _ Hr). by rewrite Hp.
  - rewrite <-Hp. apply (r_nodup _ _ _ _ Hr).
Qed.

(** ** C12 *)

Lemma loop_chain t b l q e c :
  drop (S b) (bins t) = l → b < length (bins t) →
  ends (λ n, it_loop n t (let b' := skip (S b) l in
         if decide (b' < length (bins t)) then Iter (default None (bins t !! b')) b' else Iter None b')) q →
  chain (nxt t) (Some e) c →
  ends (λ n, it_loop n t (Iter (Some e) b)) (c ++ q).
Proof.
  intros Hl Hb Hq. revert e. induction c as [|x c IH]; intros e Hc; [done|].
  destruct Hc as [[= <-] Hc].
  assert (∀ n, it_loop (S n) t (Iter (Some e) b) =
     (it' ← it_next (bins t) (nxt t) (Iter (Some e) b); l ← it_loop n t it'; Some (e :: l))) as Hstep.
  { done. }
  assert (∀ it' r, it_next (bins t) (nxt t) (Iter (Some e) b) = Some it' →
     ends (λ n, it_loop n t it') r → ends (λ n, it_loop n t (Iter (Some e) b)) (e :: r)) as Hcont.
  { intros it' r Hit [k Hk]. exists (S k). intros [|n] Hn; [lia|]. rewrite Hstep, Hit.
    cbn [mbind option_bind]. by rewrite Hk by lia. }
  assert (∀ e', nxt t e = Some e' → it_next (bins t) (nxt t) (Iter (Some e) b) = Some (Iter (Some e') b)) as Hn1.
  { intros e' He'. unfold it_next. simpl. rewrite decide_False by lia. by rewrite He'. }
  destruct (nxt t e) as [e'|] eqn:Ee.
  - apply (Hcont _ (c ++ q) (Hn1 e' eq_refl)). apply IH. done.
  - apply chain_nil in Hc. subst c. simpl.
    eapply Hcont; [|exact Hq]. unfold it_next. cbn [it_b it_n mbind option_bind].
    rewrite decide_False by lia. rewrite Ee. unfold nextbin. rewrite Hl. cbn zeta.
    case_decide as Hd; [|done].
    destruct (lookup_lt_is_Some_2 _ _ Hd) as [p Hp]. by rewrite Hp.
Qed.

Lemma loop_from t : ∀ rest crest pre,
  bins t = pre ++ rest → Forall2 (chain (nxt t)) rest crest →
  ends (λ n, it_loop n t (let b' := skip (length pre) rest in
    if decide (b' < length (bins t)) then Iter (default None (bins t !! b')) b' else Iter None b'))
    (concat crest).
Proof.
  induction rest as [|p rest IH]; intros crest pre Hbins Hc.
  - apply Forall2_nil_inv_l in Hc as ->. simpl.
    rewrite app_nil_r in Hbins. rewrite decide_False by (rewrite Hbins; lia).
    exists 1. intros [|n] Hn; [lia|]. simpl. rewrite decide_True; [done|].
    unfold it_end. by rewrite Hbins.
  - apply Forall2_cons_inv_l in Hc as (c & crest' & Hc & Hrest & ->).
    assert (bins t = (pre ++ [p]) ++ rest) as Hbins' by by rewrite <-app_assoc.
    specialize (IH crest' (pre ++ [p]) Hbins' Hrest).
    rewrite app_length in IH. simpl in IH. rewrite Nat.add_1_r in IH.
    destruct p as [e|]; simpl.
    + assert (length pre < length (bins t)) as Hlt by (rewrite Hbins, app_length; simpl; lia).
      rewrite decide_True by done.
      assert (bins t !! length pre = Some (Some e)) as ->.
      { rewrite Hbins. by apply list_lookup_middle. }
      simpl. eapply loop_chain; [|done|exact IH|done].
      rewrite Hbins'. by rewrite drop_app_alt by (rewrite app_length; simpl; lia).
    + apply chain_nil in Hc as ->. simpl. exact IH.
Qed.

(** Iterating from begin() to end() terminates and yields every node once. *)
Theorem C12_iteration_visits_each_once t C :
  reach t C → ∃ l, ends (λ n, iterate n t) l ∧ l ≡ₚ C ∧ NoDup l.
Proof.
  intros (Hb & _ & cs & Hr & Hp)%reach_inv. exists (concat cs). split; [|split; [done|]].
  2: apply (r_nodup _ _ _ _ Hr).
  pose proof (loop_from t (bins t) cs [] eq_refl (r_chains _ _ _ _ Hr)) as Hends.
  eapply ends_ext; [|exact Hends]. intros n. simpl. unfold iterate, it_begin.
  destruct (bins t) as [|p bs] eqn:Ebs; [done|]. cbn [lookup list_lookup mbind option_bind].
  destruct p as [e|].
  - done.
  - unfold nextbin. cbn [drop]. simpl skip.
    replace (drop 0 bs) with bs by done.
    case_decide as Hd; [|done].
    destruct (lookup_lt_is_Some_2 _ _ Hd) as [q Hq]. rewrite Hq. done.
Qed.

(** ** C13 *)

(** A second list sharing the embedded entries: adding node [x] to it (its bins are
    [b2]) rewrites the entries of [t]. *)
Definition share (t : table) (nx : nat → option nat) : table := Tbl (fill t) (bins t) nx.

Lemma chain_cut nx p a x b :
  chain nx p (a ++ x :: b) → NoDup (a ++ x :: b) → chain (upd nx x None) p (a ++ [x]).
Proof.
  revert p. induction a as [|y a IH]; intros p Hc Hnd.
  - destruct Hc as [-> _]. simpl. split; [done|]. by rewrite upd_same.
  - simpl in *. destruct Hc as [-> Hc]. apply NoDup_cons in Hnd as [Hy Hnd].
    split; [done|]. rewrite upd_other by set_solver. by apply IH.
Qed.

Lemma lost t cs a x c y b i nx' :
  repr key hash t cs → distinct (concat cs) → bins t ≠ [] → cs !! i = Some (a ++ x :: c ++ y :: b) →
  nx' = upd (nxt t) x None →
  ends (λ n, find key hash eqk n (share t nx') (key y)) None.
Proof.
  intros Hr Hd Hb Hi ->.
  set (cc := a ++ x :: c ++ y :: b) in *.
  assert (NoDup cc) as Hnd.
  { pose proof (r_nodup _ _ _ _ Hr) as Hnd.
    destruct (elem_of_list_split_length _ _ _ Hi) as (l1 & l2 & Hcs & _).
    rewrite Hcs, concat_app in Hnd. simpl in Hnd.
    apply NoDup_app in Hnd as (_ & _ & Hnd). by apply NoDup_app in Hnd as (? & _ & _). }
  assert (y ∈ cc) as Hy by (unfold cc; set_solver).
  assert (hash (key y) mod length cs = i) as Hpl by (eapply (r_placed _ _ _ _ Hr); done).
  pose proof (Forall2_length _ _ _ (r_chains _ _ _ _ Hr)) as Hlen.
  destruct (Forall2_lookup_r _ _ _ _ _ (r_chains _ _ _ _ Hr) Hi) as (p & Hp & Hch).
  exists (length (a ++ [x])). intros n Hn. unfold find, share. simpl.
  rewrite decide_False by by destruct (bins t). rewrite Hlen, Hpl, Hp. cbn [mbind option_bind].
  rewrite (walk_spec key eqk n _ _ _ (a ++ [x])); [|by eapply chain_cut|done].
  f_equal.
  destruct (first key eqk (key y) (a ++ [x])) as [e|] eqn:E; [|done].
  apply first_Some in E as [He Hk].
  assert (e ∈ cc) as Hecc by (unfold cc; set_solver).
  assert (e = y) as ->.
  { apply Hd; [| |done]; apply elem_of_concat; eauto. }
  unfold cc in Hnd. exfalso.
  replace (a ++ x :: c ++ y :: b) with ((a ++ [x]) ++ c ++ y :: b) in Hnd by by rewrite <-app_assoc.
  apply NoDup_app in Hnd as (_ & Hdis & _). eapply Hdis; [done|]. set_solver.
Qed.

(** Two nodes [a], [b] in the same bucket of a closed list.  Adding one of them to a
    second closed list that shares the entries, and has room and an empty bucket
    for it, makes the first list forget the other one: find returns NULL for
    a state that was added and never removed. *)
Theorem C13_add_to_second_list_loses_nodes t C a b :
  reach t C → a ∈ C → b ∈ C → a ≠ b →
  hash (key a) mod length (bins t) = hash (key b) mod length (bins t) →
  ∃ x y, (x = a ∧ y = b ∨ x = b ∧ y = a) ∧
    ends (λ n, find key hash eqk n t (key y)) (Some y) ∧
    ∀ t2 t2', nxt t2 = nxt t → fill t2 * Fillfact < length (bins t2) →
      bins t2 !! (hash (key x) mod length (bins t2)) = Some None →
      ends (λ n, add key hash Fillfact n t2 x) t2' →
      ends (λ n, find key hash eqk n (share t (nxt t2')) (key y)) None.
Proof.
  intros Hreach Ha Hb Hne Hsame.
  pose proof (reach_inv _ _ Hreach) as (Hbins & Hd & cs & Hr & Hp).
  assert (∀ y, y ∈ C → ends (λ n, find key hash eqk n t (key y)) (Some y)) as Hfind.
  { intros y Hy. destruct (C11_closed_operations_terminate _ _ Hreach) as (_ & Hf & _).
    destruct (Hf (key y)) as [o Ho].
    destruct (C11_closed_find_exact _ _ _ _ Hreach Ho) as [H1 _].
    rewrite (proj2 (H1 y)) in Ho; [done|]. split; [done|apply eqk_refl]. }
  assert (distinct (concat cs)) as Hd' by (intros x y; rewrite Hp; apply Hd).
  assert (∀ x y i u v w, y ∈ C → cs !! i = Some (u ++ x :: v ++ y :: w) →
    ∀ t2 t2', nxt t2 = nxt t → fill t2 * Fillfact < length (bins t2) →
      bins t2 !! (hash (key x) mod length (bins t2)) = Some None →
      ends (λ n, add key hash Fillfact n t2 x) t2' →
      ends (λ n, find key hash eqk n (share t (nxt t2')) (key y)) None) as Hlost.
  { intros x y i u v w Hy Hi t2 t2' Hn2 Hroom Hempty [m Hm].
    specialize (Hm m ltac:(lia)). unfold add in Hm. rewrite decide_False in Hm by lia.
    cbn [mbind option_bind] in Hm. unfold link in Hm. rewrite decide_False in Hm by lia.
    rewrite Hempty in Hm. cbn [mbind option_bind] in Hm. injection Hm as <-.
    eapply lost; [done|done|done|exact Hi|]. simpl. by rewrite Hn2. }
  pose proof (Forall2_length _ _ _ (r_chains _ _ _ _ Hr)) as Hlen.
  rewrite <-Hp in Ha, Hb. apply elem_of_concat in Ha as (i & c & Hi & Ha).
  apply elem_of_concat in Hb as (j & c' & Hj & Hb).
  assert (j = i) as ->.
  { pose proof (r_placed _ _ _ _ Hr _ _ _ Hi Ha) as H1.
    pose proof (r_placed _ _ _ _ Hr _ _ _ Hj Hb) as H2. simpl in *. rewrite <-Hlen in H1, H2.
    congruence. }
  rewrite Hi in Hj. injection Hj as <-.
  assert (a ∈ C ∧ b ∈ C) as [HaC HbC].
  { rewrite <-Hp. split; apply elem_of_concat; eauto. }
  apply elem_of_list_split in Ha as (l1 & l2 & ->).
  apply elem_of_app in Hb as [Hb|Hb].
  - apply elem_of_list_split in Hb as (l3 & l4 & ->).
    exists b, a. split; [by right|]. split; [by apply Hfind|].
    apply (Hlost b a i l3 l4 l2); [done|]. rewrite Hi. f_equal. by rewrite <-app_assoc.
  - apply elem_of_cons in Hb as [->|Hb]; [done|].
    apply elem_of_list_split in Hb as (l3 & l4 & ->).
    exists a, b. split; [by left|]. split; [by apply Hfind|].
    by apply (Hlost a b i l1 l3 l4).
Qed.

End props.

(** ** Non-vacuity: states are numbers, hash modulo 4; three nodes, two colliding. *)
Section example.
Let key (e : nat) := e.
Let hash (k : nat) := k mod 4.

Lemma eqb_facts :
  (∀ a, Nat.eqb a a = true) ∧ (∀ a b, Nat.eqb a b = true → Nat.eqb b a = true) ∧
  (∀ a b c, Nat.eqb a b = true → Nat.eqb b c = true → Nat.eqb a c = true) ∧
  (∀ a b, Nat.eqb a b = true → hash a = hash b).
Proof.
  split_and!.
  - apply Nat.eqb_refl.
  - intros a b ->%Nat.eqb_eq. apply Nat.eqb_refl.
  - by intros a b c ->%Nat.eqb_eq.
  - by intros a b ->%Nat.eqb_eq.
Qed.

Lemma ex_extend t C e :
  reach key hash Nat.eqb t C → e ∉ C → ∃ t', reach key hash Nat.eqb t' (e :: C).
Proof.
  intros Hr He. destruct eqb_facts as (H1 & H2 & H3 & H4).
  destruct (C11_closed_operations_terminate key hash Nat.eqb H1 H2 H4 t C Hr) as (Hadd & _ & _).
  assert (∀ x, x ∈ C → Nat.eqb (key x) (key e) = false) as Hf.
  { intros x Hx. apply Nat.eqb_neq. unfold key. congruence. }
  destruct (Hadd e Hf) as [t' Ht']. exists t'. by eapply reach_add.
Qed.

Example ex_three : ∃ t, reach key hash Nat.eqb t [5; 2; 1] ∧
  ∃ a b, a ∈ [5; 2; 1] ∧ b ∈ [5; 2; 1] ∧ a ≠ b ∧
    hash (key a) mod length (bins t) = hash (key b) mod length (bins t).
Proof.
  destruct (ex_extend (new 2 (λ _, None)) [] 1) as [t1 H1]; [constructor; lia|set_solver|].
  destruct (ex_extend t1 [1] 2) as [t2 H2]; [done|set_solver|].
  destruct (ex_extend t2 [2; 1] 5) as [t3 H3]; [done|set_solver|].
  exists t3. split; [done|]. exists 5, 1. split_and!; [set_solver|set_solver|done|done].
Qed.
End example.

Print Assumptions C11_closed_operations_terminate.
Print Assumptions C11_closed_find_exact.
Print Assumptions C11_closed_remove_exact.
Print Assumptions C11_closed_fill_exact.
Print Assumptions C12_iteration_visits_each_once.
Print Assumptions C13_add_to_second_list_loses_nodes.
