(** Lemmas about disjoint sets. *)
From stdpp Require Import prelude.
From Coq Require Import Lia.
From Verif.Djset Require Import Model.

Lemma upd_same f e v : upd f e v e = v.
Proof. unfold upd. by rewrite decide_True. Qed.
Lemma upd_other f e v x : x ≠ e → upd f e v x = f x.
Proof. intros. unfold upd. by rewrite decide_False. Qed.

(** [root p x r]: following parent pointers from [x] ends at [r]. *)
Inductive root (p : nat → nat) : nat → nat → Prop :=
  | root_self x : p x = x → root p x x
  | root_up x r : p x ≠ x → root p (p x) r → root p x r.

Lemma root_det p x r r' : root p x r → root p x r' → r = r'.
Proof.
  intros H. revert r'. induction H as [x Hx|x r Hx Hr IH]; intros r' H'.
  - by inversion H'.
  - inversion H'; subst; [done|]. by apply IH.
Qed.
Lemma root_root p x r : root p x r → p r = r.
Proof. by induction 1. Qed.

(** Path compression at one node changes no root. *)
Lemma root_compress p x r y q : root p x r → x ≠ r → root p y q → root (upd p x r) y q.
Proof.
  intros Hx Hne. induction 1 as [y Hy|y q Hy Hr IH].
  - constructor. rewrite upd_other; [done|]. intros ->. apply Hne. eapply root_det; [|done].
    by constructor.
  - destruct (decide (y = x)) as [->|Hyx].
    + assert (q = r) as ->. { eapply root_det; [|done]. by constructor. }
      pose proof (root_root _ _ _ Hx).
      apply root_up; rewrite upd_same; [done|]. constructor. by rewrite upd_other.
    + apply root_up; rewrite upd_other by done; done.
Qed.

(** Linking root [a] under root [b]. *)
Lemma root_link p a b y q :
  p a = a → p b = b → a ≠ b → root p y q →
  root (upd p a b) y (if decide (q = a) then b else q).
Proof.
  intros Ha Hb Hab. induction 1 as [y Hy|y q Hy Hr IH].
  - case_decide as Hya.
    + subst. apply root_up; rewrite upd_same; [done|]. constructor. by rewrite upd_other.
    + constructor. by rewrite upd_other.
  - assert (y ≠ a) by congruence. apply root_up; by rewrite upd_other.
Qed.

Definition total (p : nat → nat) : Prop := ∀ x, ∃ r, root p x r.

Lemma find_spec s x r :
  total (parent s) → root (parent s) x r →
  ∃ k s', (∀ n, k ≤ n → find n s x = Some (s', r)) ∧ rank s' = rank s ∧
    (∀ y q, root (parent s) y q → root (parent s') y q).
Proof.
  intros Htot. induction 1 as [x Hx|x r Hx Hr IH].
  - exists 1, s. split_and!; [|done|done]. intros [|n] Hn; [lia|].
    simpl. by rewrite decide_True.
  - destruct IH as (k & s' & Hf & Hrk & Hroots).
    exists (S k). eexists. split_and!.
    + intros [|n] Hn; [lia|]. simpl. rewrite decide_False by done.
      rewrite Hf by lia. simpl. by rewrite upd_same.
    + done.
    + simpl. intros y q Hy. apply root_compress; [| |by apply Hroots].
      * apply Hroots. by apply root_up.
      * intros ->. apply root_root in Hr. done.
Qed.

Lemma roots_total s s' :
  total (parent s) → (∀ y q, root (parent s) y q → root (parent s') y q) → total (parent s').
Proof. intros Ht Hr x. destruct (Ht x) as [r H]. exists r. auto. Qed.

Lemma roots_iff s s' :
  total (parent s) → (∀ y q, root (parent s) y q → root (parent s') y q) →
  ∀ y q, root (parent s') y q ↔ root (parent s) y q.
Proof.
  intros Ht Hr y q. split; [|apply Hr]. intros H.
  destruct (Ht y) as [q' Hq']. rewrite (root_det _ _ _ _ H (Hr _ _ Hq')). done.
Qed.

Lemma join_spec s x y rx ry :
  total (parent s) → root (parent s) x rx → root (parent s) y ry →
  ∃ k s', (∀ n, k ≤ n → join n s x y = Some s') ∧ total (parent s') ∧
    ∃ a b, (a = rx ∧ b = ry ∨ a = ry ∧ b = rx) ∧
      ∀ z q, root (parent s) z q → root (parent s') z (if decide (q = a) then b else q).
Proof.
  intros Ht Hx Hy.
  destruct (find_spec s x rx Ht Hx) as (k1 & s1 & Hf1 & Hrk1 & Hr1).
  pose proof (roots_total _ _ Ht Hr1) as Ht1.
  destruct (find_spec s1 y ry Ht1 (Hr1 _ _ Hy)) as (k2 & s2 & Hf2 & Hrk2 & Hr2).
  pose proof (roots_total _ _ Ht1 Hr2) as Ht2.
  assert (∀ z q, root (parent s) z q → root (parent s2) z q) as Hr by auto.
  assert (parent s2 rx = rx) as Hprx by (eapply root_root, Hr, Hx).
  assert (parent s2 ry = ry) as Hpry by (eapply root_root, Hr, Hy).
  exists (k1 + k2).
  destruct (decide (rx = ry)) as [He|He].
  - exists s2. split_and!.
    + intros n Hn. unfold join. rewrite Hf1 by lia. simpl. rewrite Hf2 by lia. simpl.
      by rewrite decide_True.
    + done.
    + exists rx, ry. split; [by left|]. intros z q Hz. subst. case_decide; subst; auto.
  - destruct (decide (rank s2 rx < rank s2 ry)) as [Hlt|Hge].
    + eexists. split_and!.
      * intros n Hn. unfold join. rewrite Hf1 by lia. simpl. rewrite Hf2 by lia. simpl.
        rewrite decide_False by done. rewrite decide_True by done. done.
      * simpl. intros z. destruct (Ht2 z) as [q Hq]. eexists. by apply root_link.
      * exists rx, ry. split; [by left|]. intros z q Hz. simpl. apply root_link; auto.
    + set (s3 := DJ (upd (parent s2) ry rx) (rank s2)).
      exists (if decide (rank s3 rx = rank s3 ry)
          then DJ (parent s3) (upd (rank s3) x (rank s3 x + 1)) else s3).
      assert (parent (if decide (rank s3 rx = rank s3 ry)
          then DJ (parent s3) (upd (rank s3) x (rank s3 x + 1)) else s3)
          = upd (parent s2) ry rx) as Hps by by case_decide.
      split_and!.
      * intros n Hn. unfold join. rewrite Hf1 by lia. simpl. rewrite Hf2 by lia. simpl.
        rewrite decide_False by done. rewrite decide_False by done. done.
      * rewrite Hps. intros z. destruct (Ht2 z) as [q Hq]. eexists. by apply root_link.
      * exists ry, rx. split; [by right|]. intros z q Hz. rewrite Hps. apply root_link; auto.
Qed.
