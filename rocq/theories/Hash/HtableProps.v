(** Properties C09 and C10: Htable (structs/htable.hpp). *)
From stdpp Require Import prelude.
From Coq Require Import Lia.
From Verif.Common Require Import Fuel.
From Verif.Hash Require Import Model Proofs.

Section props.
Context {K : Type} (key : nat → K) (hash : K → nat) (eqk : K → K → bool) (fillfact : nat).
(** Keys that compare equal hash equal. *)
Hypothesis hash_compat : ∀ a b, eqk a b = true → hash a = hash b.

(** The first element of the chain for key [k] has key [k]. *)
Definition head_hit (t : table) (k : K) (e : nat) : Prop :=
  bins t !! (hash k mod length (bins t)) = Some (Some e) ∧ eqk (key e) k = true.

(** Histories of a table created with at least one bin; the list is the multiset
    of elements that have been added and not removed. *)
Inductive reach : table → list nat → Prop :=
  | reach_new sz nx : 1 ≤ sz → reach (new sz nx) []
  | reach_add t C e t' :
      reach t C → e ∉ C → ends (λ n, add key hash fillfact n t e) t' → reach t' (e :: C)
  | reach_rm_head t C k e t' C' :
      reach t C → head_hit t k e → C ≡ₚ e :: C' →
      ends (λ n, rm key hash eqk n t k) (t', true) → reach t' C'
  | reach_rm_absent t C k t' :
      reach t C → ends (λ n, rm key hash eqk n t k) (t', false) → reach t' C
  | reach_clear t C : reach t C → reach (clear t) [].

Definition inv (t : table) (C : list nat) : Prop :=
  bins t ≠ [] ∧ ∃ cs, repr key hash t cs ∧ concat cs ≡ₚ C.

Lemma rm_head fuel t cs k e :
  repr key hash t cs → length (concat cs) ≤ fuel → head_hit t k e →
  ∃ t' cs', rm key hash eqk fuel t k = Some (t', true) ∧ repr key hash t' cs' ∧
    concat cs ≡ₚ e :: concat cs' ∧ length (bins t') = length (bins t).
Proof.
  intros Hr Hf [Hh Hk]. unfold rm.
  set (i := hash k mod length (bins t)) in *.
  pose proof (lookup_lt_Some _ _ _ Hh) as Hi. rewrite decide_False by lia.
  destruct (bin_lookup _ _ t cs i Hr Hi) as (p & c & Hp & Hcs & Hch).
  rewrite Hh in Hp. injection Hp as <-. rewrite Hh. cbn [mbind option_bind].
  destruct c as [|x c]; [done|]. destruct Hch as [[= <-] Hch].
  assert (∀ f, walk2 key eqk f (nxt t) None (Some e) k = Some (None, Some e)) as ->.
  { intros f. destruct f; simpl; by rewrite Hk. }
  cbn [mbind option_bind].
  assert (e ∈ concat cs) as Hin. { apply elem_of_concat. exists i, (e :: c). split; [done|by left]. }
  destruct (decfill_spec _ _ t cs e Hr Hin) as (n & -> & Hfill). cbn [mbind option_bind].
  do 2 eexists. split; [done|]. split_and!.
  - by eapply unlink_head.
  - by eapply concat_insert_perm.
  - simpl. by rewrite insert_length.
Qed.

(** General result of rm: nothing found, the head removed, or only fill changed. *)
Lemma rm_cases fuel t cs k :
  repr key hash t cs → length (concat cs) ≤ fuel → bins t ≠ [] →
  (rm key hash eqk fuel t k = Some (t, false) ∧ ∀ e, e ∈ concat cs → eqk (key e) k = false) ∨
  (∃ e, head_hit t k e) ∨
  ((∀ e, ¬ head_hit t k e) ∧ ∃ e, e ∈ concat cs ∧ eqk (key e) k = true ∧
   rm key hash eqk fuel t k = Some (Tbl (fill t - 1) (bins t) (nxt t), true)).
Proof.
  intros Hr Hf Hb. unfold rm. assert (length (bins t) ≠ 0) as Hn by by destruct (bins t).
  rewrite decide_False by done.
  set (i := hash k mod length (bins t)).
  assert (i < length (bins t)) as Hi by by apply Nat.mod_upper_bound.
  destruct (bin_lookup _ _ t cs i Hr Hi) as (p & c & Hp & Hcs & Hch).
  rewrite Hp. cbn [mbind option_bind].
  pose proof (walk2_spec key eqk fuel (nxt t) None p k c Hch
    ltac:(pose proof (concat_length_lookup _ _ _ Hcs); lia)) as Hw.
  destruct (first key eqk k c) as [e|] eqn:Efst.
  - destruct Hw as (a & b & -> & Ha & He & ->). cbn [mbind option_bind].
    assert (e ∈ concat cs) as Hin.
    { apply elem_of_concat. exists i, (a ++ e :: b). split; [done|]. set_solver. }
    destruct (decfill_spec _ _ t cs e Hr Hin) as (n & -> & Hfill). cbn [mbind option_bind].
    right. destruct a as [|x a].
    + left. simpl in Hch. destruct Hch as [-> _]. exists e. split; done.
    + right. destruct Hch as [-> Hch]. split.
      * intros e' [Hh Hk]. fold i in Hh. rewrite Hp in Hh. injection Hh as ->.
        rewrite Ha in Hk; [done|by left].
      * exists e. split_and!; [done|done|].
        replace n with (fill t - 1) by lia.
        destruct (last (x :: a)) eqn:El; [done|by apply last_None in El].
  - destruct Hw as (q' & ->). cbn [mbind option_bind]. left. split; [done|].
    intros e He. destruct (eqk (key e) k) eqn:E; [|done]. rewrite <-E.
    eapply first_None; [done|]. by eapply bucket_complete.
Qed.

Lemma reach_inv t C : reach t C → inv t C.
Proof.
  induction 1 as [sz nx Hsz|t C e t' Hr [Hb (cs & Hrp & Hp)] He [m Ha]
    |t C k e t' C' Hr [Hb (cs & Hrp & Hp)] Hh HC [m Hrm]
    |t C k t' Hr [Hb (cs & Hrp & Hp)] [m Hrm]|t C Hr [Hb (cs & Hrp & Hp)]].
  - split; [by destruct sz; [lia|]|]. exists (replicate sz []). split; [apply new_repr|].
    by rewrite concat_replicate_nil.
  - destruct (add_spec key hash fillfact (m + length (concat cs)) t cs e) as (t1 & cs1 & Ha1 & Hr1 & Hp1 & Hb1).
    { done. } { by rewrite Hp. } { lia. }
    rewrite Ha in Ha1 by lia. injection Ha1 as <-. split; [done|]. exists cs1. split; [done|].
    by rewrite Hp1, Hp.
  - destruct (rm_head (m + length (concat cs)) t cs k e) as (t1 & cs1 & Ha1 & Hr1 & Hp1 & Hl);
      [done|lia|done|].
    rewrite Hrm in Ha1 by lia. injection Ha1 as <-. split.
    { intros H0. rewrite H0 in Hl. by destruct (bins t). }
    exists cs1. split; [done|]. rewrite Hp1, HC in Hp. by apply (inj (cons e)) in Hp.
  - destruct (rm_cases (m + length (concat cs)) t cs k) as [[Hc _]|[[e Hh]|[_ (e & _ & _ & Hc)]]];
      [done|lia|done|..].
    + rewrite Hrm in Hc by lia. injection Hc as ->. split; [done|]. eauto.
    + destruct (rm_head (m + length (concat cs)) t cs k e) as (t1 & cs1 & Ha1 & _); [done|lia|done|].
      rewrite Hrm in Ha1 by lia. done.
    + rewrite Hrm in Hc by lia. done.
  - split.
    + simpl. by destruct (bins t).
    + exists (replicate (length (bins t)) []). split; [apply clear_repr|].
      by rewrite concat_replicate_nil.
Qed.

(** ** C09 *)

(** add, find and rm terminate without undefined behaviour. *)
Theorem C09_htable_operations_terminate t C :
  reach t C →
  (∀ e, e ∉ C → ∃ t', ends (λ n, add key hash fillfact n t e) t') ∧
  (∀ k, ∃ o, ends (λ n, find key hash eqk n t k) o) ∧
  (∀ k, ∃ t' b, ends (λ n, rm key hash eqk n t k) (t', b)).
Proof.
  intros [Hb (cs & Hr & Hp)]%reach_inv. split_and!.
  - intros e He.
    destruct (add_spec key hash fillfact (length (concat cs)) t cs e Hr) as (t' & cs' & H1 & _);
      [by rewrite Hp|done|].
    exists t', (length (concat cs)). intros n Hn.
    destruct (add_spec key hash fillfact n t cs e Hr) as (t2 & cs2 & H2 & _); [by rewrite Hp|done|].
    (* the result does not depend on the fuel *)
    rewrite H2. f_equal.
    assert (∀ m m' b nx p r, move key hash m b nx p = Some r → m ≤ m' →
              move key hash m' b nx p = Some r) as Hmove.
    { clear. induction m as [|m IH]; intros [|m'] b nx [x|] r H Hm; simpl in *; try done; try lia.
      destruct (link b nx x _) as [[b1 nx1]|]; [|done]. simpl in *. apply (IH m'); [done|lia]. }
    assert (∀ m m' old b nx r, move_all key hash m b nx old = Some r → m ≤ m' →
              move_all key hash m' b nx old = Some r) as Hall.
    { clear -Hmove. intros m m' old. induction old as [|p old IH]; intros b nx r H Hm; [done|].
      simpl in *. destruct (move key hash m b nx p) as [[b1 nx1]|] eqn:E; [|done].
      rewrite (Hmove _ _ _ _ _ _ E Hm). simpl in *. by apply IH. }
    unfold add, resize in H1, H2. case_decide; [|congruence].
    destruct (move_all key hash (length (concat cs)) _ _ _) as [[b1 nx1]|] eqn:E; [|done].
    rewrite (Hall _ _ _ _ _ _ E Hn) in H2. congruence.
  - intros k. destruct (find_spec key hash eqk hash_compat (length (concat cs)) t cs k Hr) as (o & H1 & _);
      [done|done|].
    exists o, (length (concat cs)). intros n Hn.
    assert (∀ m m' nx p r, walk key eqk m nx p k = Some r → m ≤ m' →
              walk key eqk m' nx p k = Some r) as Hwalk.
    { clear. induction m as [|m IH]; intros m' nx [x|] r H Hm; simpl in *; try done;
        destruct m' as [|m']; simpl; try lia; try done; destruct (eqk (key x) k); try done.
      apply IH; [done|lia]. }
    unfold find in *. case_decide; [done|]. destruct (bins t !! _) as [p|]; [|done].
    simpl in *. by eapply Hwalk.
  - intros k.
    assert (∀ n, length (concat cs) ≤ n → rm key hash eqk n t k = rm key hash eqk (length (concat cs)) t k)
      as Hconst.
    { intros n Hn.
      assert (∀ m m' nx q p r, walk2 key eqk m nx q p k = Some r → m ≤ m' →
              walk2 key eqk m' nx q p k = Some r) as Hwalk.
      { clear. induction m as [|m IH]; intros m' nx q [x|] r H Hm; simpl in *; try done;
          destruct m' as [|m']; simpl; try lia; try done; destruct (eqk (key x) k); try done.
        apply IH; [done|lia]. }
      assert (is_Some (rm key hash eqk (length (concat cs)) t k)) as [r Hr1].
      { destruct (rm_cases (length (concat cs)) t cs k) as [[-> _]|[[e Hh]|[_ (e & _ & _ & ->)]]];
          [done|done|done|eauto| |eauto].
        destruct (rm_head (length (concat cs)) t cs k e) as (t1 & cs1 & -> & _); [done|done|done|].
        eauto. }
      rewrite Hr1. unfold rm in *. case_decide; [done|].
      destruct (bins t !! _) as [p|]; [|done]. cbn [mbind option_bind] in *.
      destruct (walk2 key eqk (length (concat cs)) (nxt t) None p k) as [[q o]|] eqn:E; [|done].
      rewrite (Hwalk _ _ _ _ _ _ E Hn). done. }
    destruct (rm_cases (length (concat cs)) t cs k) as [[H0 _]|[[e Hh]|[_ (e & _ & _ & H0)]]];
      [done|done|done|..].
    + exists t, false, (length (concat cs)). intros n Hn. by rewrite Hconst.
    + destruct (rm_head (length (concat cs)) t cs k e) as (t1 & cs1 & H1 & _); [done|done|done|].
      exists t1, true, (length (concat cs)). intros n Hn. by rewrite Hconst.
    + do 2 eexists. exists (length (concat cs)). intros n Hn. by rewrite Hconst.
Qed.

(** find returns a contained element with that key, or nothing if there is none. *)
Theorem C09_htable_find_exact t C k o :
  reach t C → ends (λ n, find key hash eqk n t k) o →
  match o with
  | Some e => e ∈ C ∧ eqk (key e) k = true
  | None => ∀ e, e ∈ C → eqk (key e) k = false
  end.
Proof.
  intros [Hb (cs & Hr & Hp)]%reach_inv [m Hm].
  destruct (find_spec key hash eqk hash_compat (m + length (concat cs)) t cs k Hr) as (o' & H1 & H2 & H3);
    [lia|done|].
  rewrite Hm in H1 by lia. injection H1 as <-. destruct o as [e|].
  - rewrite <-Hp. by apply H2.
  - intros e He. apply H3; [done|]. by rewrite Hp.
Qed.

(** fill counts the contained elements, which are pairwise distinct. *)
Theorem C09_htable_fill_exact t C : reach t C → fill t = length C ∧ NoDup C.
Proof.
  intros [Hb (cs & Hr & Hp)]%reach_inv. split.
  - rewrite (r_fill _ _ _ _ Hr). by rewrite Hp.
  - rewrite <-Hp. apply (r_nodup _ _ _ _ Hr).
Qed.

(** rm answers true exactly when an element with that key is contained. *)
Theorem C09_htable_rm_result t C k t' b :
  reach t C → ends (λ n, rm key hash eqk n t k) (t', b) →
  (b = true ↔ ∃ e, e ∈ C ∧ eqk (key e) k = true).
Proof.
  intros [Hb (cs & Hr & Hp)]%reach_inv [m Hm].
  destruct (rm_cases (m + length (concat cs)) t cs k) as [[H0 Hno]|[[e Hh]|[_ (e & He & Hk & H0)]]];
    [done|lia|done|..].
  - rewrite Hm in H0 by lia. injection H0 as -> ->. split; [done|].
    intros (e & He & Hk). rewrite <-Hp in He. by rewrite Hno in Hk.
  - destruct (rm_head (m + length (concat cs)) t cs k e) as (t1 & cs1 & H1 & _ & Hp1 & _);
      [done|lia|done|].
    rewrite Hm in H1 by lia. injection H1 as -> ->. split; [|done]. intros _.
    exists e. split; [|by apply Hh]. rewrite <-Hp, Hp1. by left.
  - rewrite Hm in H0 by lia. injection H0 as -> ->. split; [|done]. intros _.
    exists e. split; [|done]. by rewrite <-Hp.
Qed.

(** ** C10 *)

(** If an element with key [k] is contained but is not at the head of its chain, rm
    returns true and decrements fill, and removes nothing: every later find
    (of [k] too) answers as before. *)
Theorem C10_htable_rm_interior_keeps_element t C k :
  reach t C → (∃ e, e ∈ C ∧ eqk (key e) k = true) → (∀ e, ¬ head_hit t k e) →
  ∃ t', ends (λ n, rm key hash eqk n t k) (t', true) ∧ fill t' = fill t - 1 ∧
    (∀ k' o, ends (λ n, find key hash eqk n t' k') o ↔ ends (λ n, find key hash eqk n t k') o) ∧
    ∃ e, e ∈ C ∧ eqk (key e) k = true ∧ ends (λ n, find key hash eqk n t' k) (Some e).
Proof.
  intros Hreach (e & He & Hk) Hno.
  destruct (C09_htable_operations_terminate _ _ Hreach) as (_ & Hfind & Hrm).
  destruct (Hrm k) as (t' & b & Hends). exists t'.
  pose proof (reach_inv _ _ Hreach) as [Hb (cs & Hr & Hp)].
  destruct Hends as [m Hm].
  destruct (rm_cases (m + length (concat cs)) t cs k) as [[H0 Habs]|[[e' Hh]|[_ (e' & He' & Hk' & H0)]]];
    [done|lia|done|..].
  { rewrite <-Hp in He. by rewrite Habs in Hk. }
  { by destruct (Hno e'). }
  rewrite Hm in H0 by lia. injection H0 as -> ->.
  split_and!.
  - by exists m.
  - done.
  - done.
  - destruct (Hfind k) as (o & Ho). pose proof (C09_htable_find_exact _ _ _ _ Hreach Ho) as Hex.
    destruct o as [e0|].
    + exists e0. split_and!; [apply Hex|apply Hex|exact Ho].
    + by rewrite Hex in Hk.
Qed.

(** In API terms: once [b] has been added, no element whose key hashes as [b]'s key
    (but differs from it) can be removed: rm claims success, find still
    returns an element with that key. *)
Lemma add_head t C b t' :
  reach t C → b ∉ C → ends (λ n, add key hash fillfact n t b) t' →
  bins t' !! (hash (key b) mod length (bins t')) = Some (Some b).
Proof.
  intros [Hb (cs & Hr & Hp)]%reach_inv Hbc [m Hm]. specialize (Hm m ltac:(lia)).
  unfold add in Hm.
  destruct (if decide (length (bins t) ≤ fill t * fillfact) then _ else _) as [t1|]; [|done].
  cbn [mbind option_bind] in Hm. unfold link in Hm. case_decide; [done|].
  destruct (bins t1 !! _) as [p|] eqn:E; [|done]. simpl in Hm. injection Hm as <-. simpl.
  rewrite insert_length. apply list_lookup_insert. by eapply lookup_lt_Some.
Qed.

Theorem C10_htable_rm_of_older_colliding_element t C b t' a :
  reach t C → b ∉ C → ends (λ n, add key hash fillfact n t b) t' →
  a ∈ C → hash (key a) = hash (key b) → eqk (key b) (key a) = false → eqk (key a) (key a) = true →
  ∃ t'', ends (λ n, rm key hash eqk n t' (key a)) (t'', true) ∧ fill t'' = length C ∧
    ∃ e, e ∈ C ∧ eqk (key e) (key a) = true ∧ ends (λ n, find key hash eqk n t'' (key a)) (Some e).
Proof.
  intros Hr Hb Hadd Ha Hh Hne Hrefl.
  pose proof (add_head _ _ _ _ Hr Hb Hadd) as Hhead.
  pose proof (reach_add _ _ _ _ Hr Hb Hadd) as Hr'.
  destruct (C10_htable_rm_interior_keeps_element _ _ (key a) Hr') as (t'' & Hrm & Hfill & _ & e & He & Hk & Hf).
  - exists a. split; [by right|done].
  - intros e [He Hk]. rewrite Hh in He. rewrite Hhead in He. injection He as <-. congruence.
  - exists t''. split_and!; [done| |].
    + rewrite Hfill. destruct (C09_htable_fill_exact _ _ Hr') as [-> _]. simpl. lia.
    + exists e. split_and!; [|done|done]. apply elem_of_cons in He as [->|He]; [congruence|done].
Qed.

End props.

(** ** Non-vacuity: keys are numbers, hash modulo 4, default Fillfact. *)
Section example.
Let key (e : nat) := e.
Let hash (k : nat) := k mod 4.

Lemma ex_two : ∃ t, reach key hash Nat.eqb 2 t [5; 1].
Proof.
  destruct (C09_htable_operations_terminate key hash Nat.eqb 2) with (t := new 3 (λ _, None)) (C := @nil nat)
    as (Hadd & _ & _).
  { by intros a b ->%Nat.eqb_eq. } { constructor. lia. }
  destruct (Hadd 1) as [t1 H1]; [set_solver|].
  assert (reach key hash Nat.eqb 2 t1 [1]) as Hr1 by (apply (reach_add _ _ _ _ (new 3 (λ _, None)) []); [constructor; lia|set_solver|done]).
  destruct (C09_htable_operations_terminate key hash Nat.eqb 2) with (t := t1) (C := [1])
    as (Hadd1 & _ & _); [by intros a b ->%Nat.eqb_eq|done|].
  destruct (Hadd1 5) as [t2 H2]; [set_solver|].
  exists t2. apply (reach_add _ _ _ _ t1 [1]); [done|set_solver|done].
Qed.

(** 1 and 5 collide, so the hypotheses of the C10 theorem are met. *)
Example ex_c10 : ∃ t C b t' a, reach key hash Nat.eqb 2 t C ∧ b ∉ C ∧
  ends (λ n, add key hash 2 n t b) t' ∧ a ∈ C ∧ hash (key a) = hash (key b) ∧
  Nat.eqb (key b) (key a) = false.
Proof.
  destruct ex_two as [t Ht].
  assert (9 ∉ [5; 1]) as H9 by set_solver.
  destruct (C09_htable_operations_terminate key hash Nat.eqb 2) with (t := t) (C := [5; 1])
    as (Hadd & _ & _); [by intros a b ->%Nat.eqb_eq|done|].
  destruct (Hadd 9 H9) as [t' H].
  exists t, [5; 1], 9, t', 1. split_and!; [done|done|done|set_solver|done|done].
Qed.
End example.

Print Assumptions C09_htable_operations_terminate.
Print Assumptions C09_htable_find_exact.
Print Assumptions C09_htable_fill_exact.
Print Assumptions C09_htable_rm_result.
Print Assumptions C10_htable_rm_interior_keeps_element.
Print Assumptions C10_htable_rm_of_older_colliding_element.
