(** C101, C102: pattern databases. *)
From stdpp Require Import prelude.
From Coq Require Import ZArith Lia ZifyBool ZifyNat.
From Verif.Arith Require Import Model Props.
From Verif.Rank Require Import Model Props.
From Verif.Pdb Require Import Model.
Local Open Scope Z_scope.

(** ** Specification *)

(** Positions of the [k] tiles of a pattern on a board with [N] cells. *)
Definition positions (N : Z) (k : nat) (ps : list nat) : Prop :=
  length ps = k ∧ (∀ p, p ∈ ps → Z.of_nat p < N).

(** A store whose cells are named by the elements of [P]: what one reads is what was last written
    under the same name, and 0 if nothing was. *)
Fixpoint last_written (ops : list (list nat * Z)) (ps : list nat) : Z :=
  match ops with
  | [] => 0
  | (qs, v) :: ops => if decide (qs = ps) then v else last_written ops ps
  end.

(** The database after a sequence of assignments, the most recent one first. *)
Fixpoint assign (N : Z) (d : pdb) (ops : list (list nat * Z)) : option pdb :=
  match ops with
  | [] => Some d
  | (qs, v) :: ops => d ← assign N d ops; setcost N d qs v
  end.

Definition byte (v : Z) : Prop := 0 ≤ v < 256.

(** ** Proofs *)

Lemma u32_small z : 0 ≤ z < 2^32 → u32 z = z.
Proof. apply Z.mod_small. Qed.
Lemma u64_small z : 0 ≤ z < 2^64 → u64 z = z.
Proof. apply Z.mod_small. Qed.

(** An indexing scheme that is injective and in range gives a store. *)
Lemma store N (P : list nat → Prop) (d0 : pdb) (ix : list nat → nat) :
  (∀ i, (i < length (d_costs d0))%nat → d_costs d0 !! i = Some 0) →
  (∀ d ps, d_kind d = d_kind d0 → d_patsz d = d_patsz d0 → length (d_costs d) = length (d_costs d0) → P ps →
    poscost N d ps = Some (ix ps)) →
  (∀ ps, P ps → (ix ps < length (d_costs d0))%nat) →
  (∀ ps qs, P ps → P qs → ix ps = ix qs → ps = qs) →
  ∀ ops, (∀ o, o ∈ ops → P o.1 ∧ byte o.2) →
  ∃ d, assign N d0 ops = Some d ∧ ∀ ps, P ps → getcost N d ps = Some (last_written ops ps).
Proof.
  intros Hz Hix Hlt Hinj ops Hops.
  cut (∃ d, assign N d0 ops = Some d ∧ d_kind d = d_kind d0 ∧ d_patsz d = d_patsz d0 ∧
    length (d_costs d) = length (d_costs d0) ∧
    ∀ ps, P ps → d_costs d !! ix ps = Some (last_written ops ps)).
  { intros (d & E & Hk & Hp & Hl & H). exists d. split; [done|]. intros ps HP. unfold getcost.
    rewrite Hix by done. cbn [mbind option_bind]. by apply H. }
  induction ops as [|[qs v] ops IH].
  - exists d0. split_and!; try done. intros ps HP. cbn [last_written]. apply Hz. by apply Hlt.
  - destruct IH as (d & E & Hk & Hp & Hl & H); [intros o Ho; apply Hops; by right|].
    destruct (Hops (qs, v)) as [HPq Hv]; [by left|]. cbn [fst snd] in HPq, Hv.
    cbn [assign]. rewrite E. cbn [mbind option_bind]. unfold setcost. rewrite (Hix d qs) by done. cbn [mbind option_bind].
    eexists. split; [done|]. cbn [d_kind d_patsz d_costs]. split_and!; try done; [by rewrite insert_length|].
    intros ps HP. cbn [last_written]. destruct (decide (qs = ps)) as [->|Hne].
    + rewrite list_lookup_insert by (rewrite Hl; by apply Hlt). f_equal. apply Z.mod_small. apply Hv.
    + rewrite list_lookup_insert_ne; [by apply H|]. intros Heq. apply Hne. by apply Hinj.
Qed.

(** *** Sparse *)

(** Positions read as the digits of a number in base N, the first one least significant. *)
Fixpoint number (N : Z) (ps : list nat) : Z :=
  match ps with [] => 0 | p :: ps => Z.of_nat p + N * number N ps end.

Lemma number_range N ps : 0 < N → (∀ p, p ∈ ps → Z.of_nat p < N) → 0 ≤ number N ps < N ^ Z.of_nat (length ps).
Proof.
  intros HN. induction ps as [|p ps IH]; intros H; [simpl; lia|].
  cbn [number length]. rewrite Nat2Z.inj_succ, Z.pow_succ_r by lia.
  assert (Z.of_nat p < N) by (apply H; by left). destruct IH as [I1 I2]; [intros q Hq; apply H; by right|]. nia.
Qed.

Lemma number_inj N ps qs : 0 < N → length ps = length qs → (∀ p, p ∈ ps → Z.of_nat p < N) →
  (∀ q, q ∈ qs → Z.of_nat q < N) → number N ps = number N qs → ps = qs.
Proof.
  intros HN. revert qs. induction ps as [|p ps IH]; intros [|q qs] Hl Hp Hq E; try done.
  cbn [number length] in *.
  assert (Z.of_nat p < N) by (apply Hp; by left). assert (Z.of_nat q < N) by (apply Hq; by left).
  assert (number N ps = number N qs) by nia. assert (p = q) as -> by nia.
  f_equal. apply IH; [lia| | |done]; intros x Hx; [apply Hp|apply Hq]; by right.
Qed.

Lemma sparseloop_number N k ps e ind : 0 < N → positions N k ps →
  N ^ (e + Z.of_nat k) ≤ 2^32 → 1 ≤ e → 0 ≤ ind < N ^ e →
  sparseloop N k ps ind (u32 (N ^ e)) = Some (ind + N ^ e * number N ps).
Proof.
  intros HN. revert ps e ind. induction k as [|k IH]; intros ps e ind [Hl Hp] Hov He Hind.
  - apply nil_length_inv in Hl as ->. cbn. f_equal. lia.
  - destruct ps as [|p ps]; [done|]. cbn [sparseloop number].
    assert (Z.of_nat p < N) as Hlt by (apply Hp; by left).
    assert (N ^ (e + 1) = N * N ^ e) as Hs by (rewrite Z.add_1_r, Z.pow_succ_r by lia; done).
    assert (0 < N ^ e) by (apply Z.pow_pos_nonneg; lia).
    assert (N ^ (e + 1) ≤ 2^32) as Hb.
    { etransitivity; [|exact Hov]. apply Z.pow_le_mono_r; lia. }
    assert (u32 (Z.of_nat p * u32 (N ^ e)) = Z.of_nat p * N ^ e) as ->.
    { unfold u32. rewrite Z.mul_mod_idemp_r by lia. apply Z.mod_small. nia. }
    assert (u32 (u32 (N ^ e) * N) = u32 (N ^ (e + 1))) as ->.
    { unfold u32. rewrite Z.mul_mod_idemp_l by lia. f_equal. lia. }
    rewrite u64_small by (change (2^32) with 4294967296 in Hb; change (2^64) with 18446744073709551616; nia).
    rewrite IH; [|split; [simpl in Hl; lia|intros q Hq; apply Hp; by right]| |lia|nia].
    + rewrite Hs. f_equal. nia.
    + replace (e + 1 + Z.of_nat k) with (e + Z.of_nat (S k)) by lia. done.
Qed.

Lemma sparse_posind N k d ps : 0 < N → (1 ≤ k)%nat → N ^ Z.of_nat k ≤ 2^32 → d_kind d = Sparse → d_patsz d = k →
  positions N k ps → posind N d ps = Some (number N ps).
Proof.
  intros HN Hk Hov Hd Hs [Hl Hp]. unfold posind. rewrite Hd. destruct ps as [|p ps]; [simpl in Hl; lia|].
  rewrite Hs. pose proof (sparseloop_number N (k - 1) ps 1 (Z.of_nat p) HN) as H. rewrite Z.pow_1_r in H.
  rewrite H; [cbn [number]; done| | |lia|split; [lia|apply Hp; by left]].
  - split; [simpl in Hl; lia|]. intros q Hq. apply Hp. by right.
  - replace (1 + Z.of_nat (k - 1)) with (Z.of_nat k) by lia. done.
Qed.

(** C101: as long as the number of entries fits into 32 bits, the sparse database is a store with one
    cell for each way of placing the pattern: every placement has an entry, 0 at first, and writing
    one changes no other. *)
Theorem C101_sparse_store N k ops : 0 < N → (1 ≤ k)%nat → N ^ Z.of_nat k ≤ 2^32 →
  (∀ o, o ∈ ops → positions N k o.1 ∧ byte o.2) →
  ∃ d, assign N (new_sparse N k) ops = Some d ∧
       ∀ ps, positions N k ps → getcost N d ps = Some (last_written ops ps).
Proof.
  intros HN Hk Hov. apply (store N (positions N k) _ (λ ps, Z.to_nat (number N ps))).
  - intros i Hi. cbn in *. rewrite replicate_length in Hi. by apply lookup_replicate_2.
  - intros d ps Hd Hs Hl HP. unfold poscost. rewrite (sparse_posind N k) by done. cbn [mbind option_bind].
    rewrite Hl. cbn [new_sparse newpdb d_costs]. rewrite replicate_length.
    rewrite decide_True; [done|]. destruct HP as [<- HP]. pose proof (number_range N ps HN HP). lia.
  - intros ps [<- HP]. cbn [new_sparse newpdb d_costs]. rewrite replicate_length.
    pose proof (number_range N ps HN HP). lia.
  - intros ps qs [Hl HP] [Hl' HQ] E. pose proof (number_range N ps HN HP). pose proof (number_range N qs HN HQ).
    apply (number_inj N); [done|lia|done|done|lia].
Qed.

(** The entry of a placement depends on nothing but the placement: it is the base-N number. *)
Theorem C101_sparse_index N k ps : 0 < N → (1 ≤ k)%nat → N ^ Z.of_nat k ≤ 2^32 → positions N k ps →
  poscost N (new_sparse N k) ps = Some (Z.to_nat (number N ps)) ∧ 0 ≤ number N ps < N ^ Z.of_nat k.
Proof.
  intros HN Hk Hov HP. pose proof HP as [Hl HP']. pose proof (number_range N ps HN HP') as Hr. rewrite Hl in Hr.
  split; [|done]. unfold poscost. rewrite (sparse_posind N k) by done. cbn [mbind option_bind].
  cbn [new_sparse newpdb d_costs]. rewrite replicate_length. rewrite decide_True; [done|lia].
Qed.

(** The 15-puzzle with patterns of nine tiles or more: the multiplier wraps to 0. *)
Lemma sparseloop_zero N k ps ind : (k ≤ length ps)%nat → 0 ≤ ind < 2^64 → sparseloop N k ps ind 0 = Some ind.
Proof.
  revert ps. induction k as [|k IH]; intros ps Hl Hi; [done|]. destruct ps as [|p ps]; [simpl in Hl; lia|].
  cbn [sparseloop]. rewrite Z.mul_0_r, Z.mul_0_l. change (u32 0) with 0. rewrite Z.add_0_r, u64_small by done.
  apply IH; [simpl in Hl; lia|done].
Qed.

(** C101, negative: on the 4x4 board two placements of a pattern of more than eight tiles share an
    entry whenever the first eight tiles are in the same places. *)
Theorem C101_sparse_nine_tiles_refuted k d ps qs : (9 ≤ k)%nat → d_kind d = Sparse → d_patsz d = k →
  positions 16 k ps → positions 16 k qs → take 8 ps = take 8 qs → poscost 16 d ps = poscost 16 d qs.
Proof.
  intros Hk Hd Hs [Hlp Hp] [Hlq Hq] E. unfold poscost. enough (posind 16 d ps = posind 16 d qs) as -> by done.
  assert (∀ ps, length ps = k → (∀ p, p ∈ ps → Z.of_nat p < 16) → posind 16 d ps = Some (number 16 (take 8 ps))) as H;
    [|by rewrite (H ps), (H qs), E].
  clear ps qs Hlp Hp Hlq Hq E. intros ps Hl Hp. unfold posind. rewrite Hd, Hs.
  do 8 (destruct ps as [|? ps]; [simpl in Hl; lia|]). cbn [take].
  do 7 (destruct k as [|k]; [lia|]). destruct k as [|k]; [lia|].
  replace (S (S (S (S (S (S (S (S k))))))) - 1)%nat with (S (S (S (S (S (S (S k))))))) by lia.
  pose proof (Hp n ltac:(set_solver)). pose proof (Hp n0 ltac:(set_solver)). pose proof (Hp n1 ltac:(set_solver)).
  pose proof (Hp n2 ltac:(set_solver)). pose proof (Hp n3 ltac:(set_solver)). pose proof (Hp n4 ltac:(set_solver)).
  pose proof (Hp n5 ltac:(set_solver)). pose proof (Hp n6 ltac:(set_solver)).
  cbn [sparseloop]. cbn [number].
  change (u32 16) with 16. change (u32 (16 * 16)) with 256. change (u32 (256 * 16)) with 4096.
  change (u32 (4096 * 16)) with 65536. change (u32 (65536 * 16)) with 1048576.
  change (u32 (1048576 * 16)) with 16777216. change (u32 (16777216 * 16)) with 268435456.
  change (u32 (268435456 * 16)) with 0.
  simpl in Hl.
  rewrite !u32_small by (change (2^32) with 4294967296; lia).
  repeat match goal with |- context [u64 ?x] => lazymatch x with
    | context [u64 _] => fail
    | _ => rewrite (u64_small x) by (change (2^64) with 18446744073709551616; clear Hp Hl; lia) end end.
  change (take 0 ps) with (@nil nat). cbn [number]. clear Hp.
  rewrite sparseloop_zero; [f_equal; lia|lia|change (2^64) with 18446744073709551616; lia].
Qed.

(** *** Compact *)

Lemma falling_nonneg N k : Z.of_nat k ≤ N → 0 < falling N k.
Proof.
  revert N. induction k as [|k IH]; intros N H; [done|]. cbn [falling]. specialize (IH (N - 1) ltac:(lia)). nia.
Qed.

Lemma fallfact_small N k : 0 ≤ N < 2^29 → (1 ≤ k)%nat → Z.of_nat k ≤ N → falling N k < 2^64 →
  fallfact N k = falling N k.
Proof.
  intros HN Hk Hkn Hov. change (2^29) with 536870912 in HN. rewrite C26_fallfact.
  - apply Z.mod_small. pose proof (falling_nonneg N k Hkn). lia.
  - change (2^32) with 4294967296. lia.
  - done.
  - change (2^32) with 4294967296. lia.
Qed.

Lemma compact_posind N k r d ps : 0 ≤ N < 2^29 → new_ranker N k = Some r → falling N k < 2^64 →
  d_kind d = Compact r → pperm N k ps → ∃ i, posind N d ps = Some i ∧ rank r ps = Some i ∧ 0 ≤ i < falling N k.
Proof.
  intros HN Hr Hov Hd HP. destruct (C25_rank_in_range N k r ps HN Hr ltac:(lia) HP) as (i & E & Hi).
  exists i. unfold posind. rewrite Hd. done.
Qed.

(** C102: the compact database is a store with one cell for each way of placing the tiles of the
    pattern in different places. *)
Theorem C102_compact_store N k ops : 0 ≤ N < 2^29 → (1 ≤ k)%nat → Z.of_nat k ≤ N → falling N k < 2^64 →
  (∀ o, o ∈ ops → pperm N k o.1 ∧ byte o.2) →
  ∃ d0 d, new_compact N k = Some d0 ∧ assign N d0 ops = Some d ∧
       ∀ ps, pperm N k ps → getcost N d ps = Some (last_written ops ps).
Proof.
  intros HN Hk Hkn Hov Hops. destruct (C25_constructible N k HN) as [r Hr]. unfold new_compact. rewrite Hr. cbn [mbind option_bind].
  eexists. enough (∃ d, assign N (newpdb N (Compact r) (fallfact N k) k) ops = Some d ∧
       ∀ ps, pperm N k ps → getcost N d ps = Some (last_written ops ps)) as (d & H); [by exists d; split|].
  revert ops Hops. apply (store N (pperm N k) _ (λ ps, Z.to_nat (default 0 (rank r ps)))).
  - intros i Hi. cbn in *. rewrite replicate_length in Hi. by apply lookup_replicate_2.
  - intros d ps Hd Hs Hl HP. unfold poscost. destruct (compact_posind N k r d ps) as (i & E & E' & Hi); try done.
    rewrite E, E', Hl. cbn [mbind option_bind default from_option id newpdb d_costs].
    rewrite replicate_length, fallfact_small by done. rewrite decide_True; [done|lia].
  - intros ps HP. cbn [newpdb d_costs]. rewrite replicate_length, fallfact_small by done.
    destruct (C25_rank_in_range N k r ps HN Hr ltac:(lia) HP) as (i & E & Hi). rewrite E. cbn. lia.
  - intros ps qs HP HQ.
    destruct (C25_rank_in_range N k r ps HN Hr ltac:(lia) HP) as (i & E & Hi).
    destruct (C25_rank_in_range N k r qs HN Hr ltac:(lia) HQ) as (j & E' & Hj). rewrite E, E'. cbn. intros Hij.
    destruct (C25_rank_monotone N k r ps qs i j HN Hr ltac:(lia) HP HQ E E') as [_ [H _]]. apply H. lia.
Qed.

(** C102: it wastes nothing: each of its entries is the entry of exactly one placement, and the
    number reported by numentries is the number of entries. *)
Theorem C102_compact_tight N k d : 0 ≤ N < 2^29 → (1 ≤ k)%nat → Z.of_nat k ≤ N → falling N k < 2^64 →
  new_compact N k = Some d →
  Z.of_nat (length (d_costs d)) = falling N k ∧ d_nents d = falling N k ∧
  ∀ i, (i < length (d_costs d))%nat →
    ∃ ps, pperm N k ps ∧ poscost N d ps = Some i ∧ ∀ qs, pperm N k qs → poscost N d qs = Some i → qs = ps.
Proof.
  intros HN Hk Hkn Hov Hd. pose proof (falling_nonneg N k Hkn) as Hpos.
  destruct (C25_constructible N k HN) as [r Hr]. unfold new_compact in Hd. rewrite Hr in Hd. cbn [mbind option_bind] in Hd.
  injection Hd as <-. cbn [newpdb d_costs d_nents]. rewrite replicate_length, fallfact_small by done.
  split; [lia|]. split; [done|]. intros i Hi.
  destruct (C25_rank_onto N k r (Z.of_nat i) HN Hr Hkn ltac:(lia) ltac:(lia)) as (ps & HP & E).
  assert (∀ qs j, rank r qs = Some j → poscost N (newpdb N (Compact r) (falling N k) k) qs =
    if decide (j < Z.of_nat (Z.to_nat (falling N k))) then Some (Z.to_nat j) else None) as Hq.
  { intros qs j Ej. unfold poscost, posind. cbn [newpdb d_kind d_costs]. rewrite Ej. cbn [mbind option_bind].
    by rewrite replicate_length. }
  assert (∀ x, newpdb N (Compact r) (fallfact N k) x = newpdb N (Compact r) (falling N k) x) as Hff
    by (intros x; by rewrite fallfact_small).
  exists ps. rewrite (Hq ps _ E). split; [done|]. split.
  - rewrite decide_True by lia. f_equal. lia.
  - intros qs HQ Eq. destruct (C25_rank_in_range N k r qs HN Hr ltac:(lia) HQ) as (j & Ej & Hj).
    rewrite (Hq qs _ Ej) in Eq. rewrite decide_True in Eq by lia. injection Eq as Eq.
    destruct (C25_rank_monotone N k r qs ps j (Z.of_nat i) HN Hr ltac:(lia) HQ HP Ej E) as [_ [H _]]. apply H. lia.
Qed.

(** The entry for positions given as bytes is the one for the same positions. *)
Lemma widen_id k ps : length ps = k → (∀ p, p ∈ ps → (p < 256)%nat) → widen k ps = Some ps.
Proof.
  revert ps. induction k as [|k IH]; intros ps Hl Hp; [by apply nil_length_inv in Hl as ->|].
  destruct ps as [|p ps]; [done|]. cbn [widen].
  rewrite IH; [|simpl in Hl; lia|intros q Hq; apply Hp; by right]. cbn [mbind option_bind].
  rewrite Nat.mod_small by (apply Hp; by left). done.
Qed.

Theorem C102_bytes_agree N d ps : N ≤ 256 → Z.of_nat (d_patsz d) ≤ N → positions N (d_patsz d) ps →
  poscost_bytes N d ps = poscost N d ps.
Proof.
  intros HN Hk [Hl Hp]. unfold poscost_bytes. rewrite decide_True by done. rewrite widen_id; [done|done|].
  intros p Hin. specialize (Hp p Hin). lia.
Qed.

(** ** Instances *)

(** A board with six cells. *)
Example sparse_example :
  (d ← assign 6 (new_sparse 6 3) [([2; 0; 5]%nat, 9); ([0; 2; 5]%nat, 7); ([2; 0; 5]%nat, 3)];
   a ← getcost 6 d [2; 0; 5]%nat; b ← getcost 6 d [0; 2; 5]%nat; c ← getcost 6 d [1; 2; 3]%nat;
   Some (a, b, c)) = Some (9, 7, 0).
Proof. vm_compute. reflexivity. Qed.

Example sparse_hyps : 0 < 16 ∧ (1 ≤ 8)%nat ∧ 16 ^ Z.of_nat 8 ≤ 2^32 ∧
  positions 16 8 [0; 1; 2; 3; 4; 15; 6; 7]%nat.
Proof. split_and!; try lia. split; [done|]. intros p Hp. repeat (apply elem_of_cons in Hp as [->|Hp]; [lia|]). set_solver. Qed.

(** Two different placements of nine tiles with one entry between them. *)
Example nine_tiles d : d_kind d = Sparse → d_patsz d = 9%nat →
  poscost 16 d [0; 1; 2; 3; 4; 5; 6; 7; 8]%nat = poscost 16 d [0; 1; 2; 3; 4; 5; 6; 7; 9]%nat.
Proof.
  intros Hd Hs. apply (C101_sparse_nine_tiles_refuted 9); try done.
  - split; [done|]. intros p Hp. repeat (apply elem_of_cons in Hp as [->|Hp]; [lia|]). set_solver.
  - split; [done|]. intros p Hp. repeat (apply elem_of_cons in Hp as [->|Hp]; [lia|]). set_solver.
Qed.

Example compact_example :
  (d ← new_compact 6 3;
   d ← assign 6 d [([2; 0; 5]%nat, 9); ([0; 2; 5]%nat, 7); ([2; 0; 5]%nat, 3)];
   a ← getcost 6 d [2; 0; 5]%nat; b ← getcost 6 d [0; 2; 5]%nat; c ← getcost 6 d [1; 2; 3]%nat;
   Some (a, b, c, d_nents d, length (d_costs d))) = Some (9, 7, 0, 120, 120%nat).
Proof. vm_compute. reflexivity. Qed.

Example compact_hyps : 0 ≤ 16 < 2^29 ∧ (1 ≤ 9)%nat ∧ Z.of_nat 9 ≤ 16 ∧ falling 16 9 < 2^64 ∧
  pperm 16 9 [0; 1; 2; 3; 4; 5; 6; 7; 15]%nat.
Proof.
  split; [lia|]. split; [lia|]. split; [lia|]. split; [vm_compute; reflexivity|]. split; [done|]. split; [apply (bool_decide_unpack _); vm_compute; exact I|].
  intros p Hp. repeat (apply elem_of_cons in Hp as [->|Hp]; [lia|]). set_solver.
Qed.

Print Assumptions C101_sparse_store.
Print Assumptions C101_sparse_index.
Print Assumptions C101_sparse_nine_tiles_refuted.
Print Assumptions C102_compact_store.
Print Assumptions C102_compact_tight.
Print Assumptions C102_bytes_agree.
