(** Functions with fuel: [ends f r] says that the computation [f] (a function of
    the fuel) terminates with result [r], i.e. gives [Some r] for every large
    enough amount of fuel. *)
From stdpp Require Import prelude.
From Coq Require Import Lia.

Definition ends {A} (f : nat → option A) (r : A) : Prop := ∃ k, ∀ n, k ≤ n → f n = Some r.

Lemma ends_det {A} (f : nat → option A) r r' : ends f r → ends f r' → r = r'.
Proof.
  intros [k Hk] [k' Hk']. specialize (Hk (k + k') ltac:(lia)). specialize (Hk' (k + k') ltac:(lia)).
  congruence.
Qed.

Lemma ends_intro {A} (f : nat → option A) r k : (∀ n, k ≤ n → f n = Some r) → ends f r.
Proof. by exists k. Qed.

Lemma ends_ext {A} (f g : nat → option A) r : (∀ n, f n = g n) → ends f r → ends g r.
Proof. intros Hfg [k Hk]. exists k. intros n Hn. by rewrite <-Hfg, Hk. Qed.

(** For functions monotone in the fuel one successful run is enough. *)
Lemma ends_mono {A} (f : nat → option A) r n :
  (∀ n m r, f n = Some r → n ≤ m → f m = Some r) → f n = Some r → ends f r.
Proof. intros Hm Hn. exists n. intros m Hle. by eapply Hm. Qed.
