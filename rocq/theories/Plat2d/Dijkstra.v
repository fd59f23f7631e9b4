(** C116: the distances to the goal of plat2d's visibility graph, plat2d.cc:87-125.

    The graph is given by the edges of each vertex, as target and cost.  Distances are exact rationals; [None] is
    infinity.  The heap is the one of BinHeap/Model.v; the fields d and i of a node are its key and index. *)
From stdpp Require Import prelude.
From Coq Require Import ZArith Lia ZifyBool ZifyNat QArith Lqa.
From Verif.Geom Require Import Model Basics.
From Verif.BinHeap Require Import Model Proofs.
Local Open Scope nat_scope.

(** plat2d.hpp:224 *)
Definition dlt (a b : option Q) : bool :=
  match a, b with Some a, Some b => Qltb a b | Some _, None => true | None, _ => false end.
Definition dplus (a : option Q) (c : Q) : option Q := (λ a, a + c)%Q <$> a.

Section dijkstra.
Context (adj : nat → list (nat * Q)).

(** plat2d.hpp:217-221: the heap with the distances, and prev; -1 is [None]. *)
Record paths := Paths { queue : heap (option Q); prev : nat → option nat }.
(** plat2d.cc:115-123 *)
Definition relax (v : nat) (s : paths) (e : nat * Q) : option paths :=
  let h := queue s in
  let d := dplus (key h v) e.2 in
  if negb (dlt d (key h e.1)) then Some s
  else
    let h := setkey h e.1 d in
    let p w := if decide (w = e.1) then Some v else prev s w in
    h ← (if decide (ind h e.1 < 0)%Z then push dlt h e.1 else update dlt h (ind h e.1));
    Some (Paths h p).
(** plat2d.cc:105-124 *)
Fixpoint relaxes (v : nat) (s : paths) (es : list (nat * Q)) : option paths :=
  match es with
  | [] => Some s
  | e :: es => s ← relax v s e; relaxes v s es
  end.
(** plat2d.cc:102-125 *)
Fixpoint dloop (fuel : nat) (s : paths) : option paths :=
  match fuel with
  | O => None
  | S fuel =>
    if empty (queue s) then Some s
    else
      '(h, v) ← pop dlt (queue s);
      v ← v;
      s ← relaxes v (Paths h (prev s)) (adj v);
      dloop fuel s
  end.
(** plat2d.cc:88-100 *)
Definition dijkstra (fuel : nat) (g : nat) : option paths :=
  let h := setkey (new (λ _, None)) g (Some 0%Q) in
  h ← push dlt h g;
  dloop fuel (Paths h (λ _, None)).
End dijkstra.

(** ** Proofs *)
Lemma dlt_asym a b : dlt a b = true → dlt b a = false.
Proof. destruct a as [a|], b as [b|]; cbn; try done. unfold Qltb. rewrite negb_true_iff, negb_false_iff. intros H. apply Qle_bool_iff. destruct (Qlt_le_dec a b); [lra|]. by apply Qle_bool_iff in q; rewrite q in H. Qed.
Definition dle (a b : option Q) : Prop := match a, b with _, None => True | None, Some _ => False | Some a, Some b => (a <= b)%Q end.
Lemma dlt_dle a b : dlt b a = false ↔ dle a b.
Proof.
  destruct a as [a|], b as [b|]; cbn; try done. unfold Qltb. rewrite negb_false_iff. apply Qle_bool_iff.
Qed.
Lemma dle_trans a b c : dle a b → dle b c → dle a c.
Proof. destruct a, b, c; cbn; try done. intros; lra. Qed.
Lemma dlt_trans a b c : dlt b a = false → dlt c b = false → dlt c a = false.
Proof. rewrite !dlt_dle. apply dle_trans. Qed.

Section proofs.
Context (adj : nat → list (nat * Q)) (n g : nat) (Hg : g < n)
  (Hadj : ∀ v w c, v < n → (w, c) ∈ adj v → w < n ∧ (0 <= c)%Q).

(** A walk from [g] and its cost. *)
Inductive walk : nat → Q → Prop :=
| walk_nil : walk g 0
| walk_snoc v x w c : walk v x → (w, c) ∈ adj v → walk w (x + c).
(** Following prev back to [g]. *)
Inductive trail (prev : nat → option nat) : nat → Q → Prop :=
| trail_nil : prev g = None → trail prev g 0
| trail_step v x w c : prev w = Some v → (w, c) ∈ adj v → trail prev v x → trail prev w (x + c).

Notation inv := (inv dlt (λ _, True)).
(** [P]: the vertices taken off the heap. *)
Inductive ptrail (prev : nat → option nat) (P : list nat) : nat → Q → Prop :=
| ptrail_nil : prev g = None → ptrail prev P g 0
| ptrail_step v x w c : prev w = Some v → v ∈ P → (w, c) ∈ adj v → ptrail prev P v x → ptrail prev P w (x + c).
Lemma ptrail_trail prev P v x : ptrail prev P v x → trail prev v x.
Proof. induction 1; by econstructor. Qed.
Lemma trail_walk prev v x : trail prev v x → walk v x.
Proof. induction 1; by econstructor. Qed.

(** [F]: the vertices whose edges have all been relaxed. *)
Record dinv (P F : list nat) (s : paths) : Prop := {
  d_inv : inv (queue s);
  d_nodup : NoDup P;
  d_sub : ∀ v, v ∈ F → v ∈ P;
  d_popped : ∀ v, v ∈ P → v < n ∧ v ∉ arr (queue s);
  d_range : ∀ v, v ∈ arr (queue s) → v < n;
  d_known : ∀ v, key (queue s) v ≠ None ↔ v ∈ P ∨ v ∈ arr (queue s);
  d_goal : key (queue s) g = Some 0%Q;
  d_trail : ∀ v x, key (queue s) v = Some x → ptrail (prev s) P v x;
  d_pos : ∀ v x, key (queue s) v = Some x → (0 <= x)%Q;
  d_order : ∀ v w, v ∈ P → w ∈ arr (queue s) → dle (key (queue s) v) (key (queue s) w);
  d_final : ∀ v w c, v ∈ F → (w, c) ∈ adj v → dle (key (queue s) w) (dplus (key (queue s) v) c) }.

Lemma ptrail_mono prev P P' v x : (∀ u, u ∈ P → u ∈ P') → ptrail prev P v x → ptrail prev P' v x.
Proof. intros H. induction 1; econstructor; eauto. Qed.
Lemma ptrail_update prev P w u v x : w ∉ P → w ≠ g → v ≠ w → ptrail prev P v x → ptrail (λ t, if decide (t = w) then Some u else prev t) P v x.
Proof.
  intros Hw Hwg Hv. induction 1 as [Hp|v x t c Hp HvP Hin Ht IH]; econstructor.
  - by rewrite decide_False.
  - rewrite decide_False by done. exact Hp.
  - done.
  - done.
  - apply IH. by intros ->.
Qed.

(** Relaxing an edge of [v], the last vertex taken off the heap. *)
Lemma relax_inv P F s v w c : dinv P F s → v ∈ P → (∀ u, u ∈ P → dle (key (queue s) u) (key (queue s) v)) → (w, c) ∈ adj v →
  ∃ s', relax v s (w, c) = Some s' ∧ dinv P F s' ∧ (∀ u, u ∈ P → key (queue s') u = key (queue s) u) ∧
    (∀ u, dle (key (queue s') u) (key (queue s) u)) ∧ dle (key (queue s') w) (dplus (key (queue s') v) c).
Proof.
  intros D Hv Hlast Hin. destruct (d_popped _ _ _ D v Hv) as [Hvn Hvq]. destruct (Hadj v w c Hvn Hin) as [Hwn Hc].
  unfold relax. cbn [fst snd]. destruct (dlt _ _) eqn:El; cbn [negb].
  2:{ exists s. split; [done|]. split; [done|]. split; [done|]. split; [intros u; destruct (key (queue s) u); cbn; [lra|done]|]. by apply dlt_dle. }
  destruct (key (queue s) v) as [x|] eqn:Ev; [|done]. cbn [dplus fmap option_fmap option_map] in *.
  assert (0 <= x)%Q as Hx by by eapply d_pos.
  assert (w ∉ P) as HwP.
  { intros HwP. specialize (Hlast w HwP). destruct (key (queue s) w) as [y|] eqn:Ew; [|done]. cbn in *.
    apply Qltb_lt in El. lra. }
  assert (w ≠ g) as Hwg. { intros ->. pose proof (d_goal _ _ _ D) as E0. rewrite E0 in El. cbn in El. apply Qltb_lt in El. lra. }
  set (h := queue s) in *. set (p := λ t, if decide (t = w) then Some v else prev s t).
  assert (∃ h', (if decide (ind (setkey h w (Some (x + c)%Q)) w < 0)%Z then push dlt (setkey h w (Some (x + c)%Q)) w else update dlt (setkey h w (Some (x + c)%Q)) (ind (setkey h w (Some (x + c)%Q)) w)) = Some h'
    ∧ inv h' ∧ (∀ u, u ∈ arr h' ↔ u = w ∨ u ∈ arr h) ∧ key h' = key (setkey h w (Some (x + c)%Q))) as (h' & Eh & Hi & Ha & Hk).
  { cbn [setkey ind]. destruct (decide (w ∈ arr h)) as [Hq|Hq].
    - destruct (update_spec dlt dlt_asym dlt_trans (λ _, True) h w (Some (x + c)%Q) (d_inv _ _ _ D) Hq) as (h' & E & Hi & Hp & Hk).
      assert (0 <= ind h w)%Z. { destruct (inv_exact _ _ _ (d_inv _ _ _ D)) as [_ Hex]. apply elem_of_list_lookup in Hq as [i Hi']. apply Hex in Hi'. unfold h in *. lia. }
      rewrite decide_False by lia. exists h'. split; [done|]. split; [done|]. split; [|done]. intros u. rewrite Hp. split; [by right|]. by intros [->|?].
    - destruct (push_spec dlt dlt_asym dlt_trans (λ _, True) h w (Some (x + c)%Q) (d_inv _ _ _ D) Hq) as (h' & E & Hi & Hp & Hk).
      pose proof (inv_out _ _ _ (d_inv _ _ _ D) w Hq I) as Ho. fold h in Ho. rewrite decide_True by lia.
      exists h'. split; [done|]. split; [done|]. split; [|done]. intros u. rewrite Hp. apply elem_of_cons. }
  rewrite Eh. cbn [mbind option_bind]. eexists. split; [done|]. cbn [queue prev].
  assert (key h' w = Some (x + c)%Q) as Kw. { rewrite Hk. cbn [setkey key]. by rewrite decide_True. }
  assert (∀ u, u ≠ w → key h' u = key h u) as Ko. { intros u Hu. rewrite Hk. cbn [setkey key]. by rewrite decide_False. }
  assert (∀ u, u ∈ P → key h' u = key h u) as KP. { intros u Hu. apply Ko. by intros ->. }
  assert (∀ u, dle (key h' u) (key h u)) as Kle.
  { intros u. destruct (decide (u = w)) as [->|Hu]; [|rewrite Ko by done; destruct (key h u); cbn; [lra|done]]. rewrite Kw. apply dlt_dle, dlt_asym. done. }
  split; [|split; [done|split; [done|]]].
  2:{ rewrite Kw, KP by done. rewrite Ev. cbn. lra. }
  constructor; cbn [queue prev].
  - done.
  - apply D.
  - apply D.
  - intros u Hu. destruct (d_popped _ _ _ D u Hu) as [Hu1 Hu2]. split; [done|]. rewrite Ha. intros [->|?]; done.
  - intros u [->|Hu]%Ha; [done|]. by apply (d_range _ _ _ D).
  - intros u. rewrite Ha. destruct (decide (u = w)) as [->|Hu]; [rewrite Kw; split; [intros _; right; by left|done]|].
    rewrite Ko by done. pose proof (d_known _ _ _ D u) as Hkn. fold h in Hkn. rewrite Hkn. tauto.
  - rewrite Ko by done. apply D.
  - intros u y Hu. destruct (decide (u = w)) as [->|Hne].
    + rewrite Kw in Hu. injection Hu as <-. eapply ptrail_step; [unfold p; by rewrite decide_True|done|done|]. apply ptrail_update; [done|done|by intros ->|]. by apply (d_trail _ _ _ D).
    + rewrite Ko in Hu by done. apply ptrail_update; [done|done|done|]. by apply (d_trail _ _ _ D).
  - intros u y Hu. destruct (decide (u = w)) as [->|Hne]; [rewrite Kw in Hu; injection Hu as <-; lra|]. rewrite Ko in Hu by done. by apply (d_pos _ _ _ D u).
  - intros u t Hu [->|Ht]%Ha.
    + rewrite KP, Kw by done. eapply dle_trans; [by apply Hlast|]. cbn. lra.
    + rewrite KP by done. destruct (decide (t = w)) as [->|Hne]; [|rewrite Ko by done; by apply (d_order _ _ _ D)].
      rewrite Kw. eapply dle_trans; [by apply Hlast|]. cbn. lra.
  - intros u t c' Hu Ht. eapply dle_trans; [apply Kle|]. rewrite KP by by apply (d_sub _ _ _ D). by apply (d_final _ _ _ D u).
Qed.

Lemma relaxes_inv P F s v es : dinv P F s → v ∈ P → (∀ u, u ∈ P → dle (key (queue s) u) (key (queue s) v)) → (∀ e, e ∈ es → e ∈ adj v) →
  ∃ s', relaxes v s es = Some s' ∧ dinv P F s' ∧ (∀ u, u ∈ P → key (queue s') u = key (queue s) u) ∧
    (∀ u, dle (key (queue s') u) (key (queue s) u)) ∧ (∀ w c, (w, c) ∈ es → dle (key (queue s') w) (dplus (key (queue s') v) c)).
Proof.
  revert s. induction es as [|[w c] es IH]; intros s D Hv Hlast Hes; cbn [relaxes].
  - exists s. split; [done|]. split; [done|]. split; [done|]. split; [intros u; destruct (key (queue s) u); cbn; [lra|done]|]. by intros w c ?%elem_of_nil.
  - destruct (relax_inv P F s v w c D Hv Hlast) as (s1 & E1 & D1 & K1 & L1 & R1); [apply Hes; apply elem_of_list_here|]. rewrite E1. cbn [mbind option_bind].
    destruct (IH s1 D1 Hv) as (s2 & E2 & D2 & K2 & L2 & R2); [intros u Hu; rewrite !K1 by done; by apply Hlast|intros e He; apply Hes; by apply elem_of_list_further|].
    exists s2. split; [done|]. split; [done|]. split; [intros u Hu; by rewrite K2, K1|]. split; [intros u; eapply dle_trans; [apply L2|apply L1]|].
    intros w' c' [[= -> ->]|Hin]%elem_of_cons; [|by apply R2]. eapply dle_trans; [apply L2|]. rewrite K2 by done. done.
Qed.

Lemma dloop_inv fuel P s : dinv P P s → n < fuel + length P → ∃ s' P', dloop adj fuel s = Some s' ∧ dinv P' P' s' ∧ arr (queue s') = [].
Proof.
  revert P s. induction fuel as [|fuel IH]; intros P s D Hf.
  { assert (length P ≤ length (seq 0 n)) as Hle.
    { apply submseteq_length, NoDup_submseteq; [apply D|]. intros v [Hv _]%(d_popped _ _ _ D). apply elem_of_seq. lia. }
    rewrite seq_length in Hle. lia. }
  cbn [dloop]. unfold empty. destruct (arr (queue s)) as [|v l] eqn:Ea.
  { rewrite bool_decide_eq_true_2 by done. by exists s, P. }
  rewrite bool_decide_eq_false_2 by done. pose proof (pop_spec dlt dlt_asym dlt_trans (λ _, True) (queue s) (d_inv _ _ _ D)) as Hp. rewrite Ea in Hp.
  destruct Hp as (h' & E & Hi & Hperm & Hk & Hmin). rewrite E. cbn [mbind option_bind].
  assert (v ∈ arr (queue s)) as Hvq by (rewrite Ea; apply elem_of_list_here). rewrite <-Ea in Hperm.
  assert (v ∉ arr h') as Hvh.
  { destruct (inv_exact _ _ _ (d_inv _ _ _ D)) as [Hnd _]. rewrite Hperm in Hnd. by apply NoDup_cons in Hnd as [? _]. }
  assert (v ∉ P) as HvP. { intros H. by apply (d_popped _ _ _ D) in H as [_ ?]. }
  assert (∀ u, u ∈ arr (queue s) ↔ u = v ∨ u ∈ arr h') as Ha. { intros u. rewrite Hperm. apply elem_of_cons. }
  assert (dinv (v :: P) P (Paths h' (prev s))) as D1.
  { constructor; cbn [queue prev]; rewrite ?Hk.
    - done.
    - constructor; [done|apply D].
    - intros u Hu. by apply elem_of_list_further.
    - intros u [->|Hu]%elem_of_cons; [split; [by apply (d_range _ _ _ D)|done]|]. destruct (d_popped _ _ _ D u Hu) as [? Hn]. split; [done|].
      intros Hq. apply Hn, Ha. by right.
    - intros u Hu. apply (d_range _ _ _ D), Ha. by right.
    - intros u. rewrite (d_known _ _ _ D u), Ha, elem_of_cons. tauto.
    - apply D.
    - intros u x Hu. eapply ptrail_mono; [|by apply (d_trail _ _ _ D)]. intros t Ht. by apply elem_of_list_further.
    - intros u x Hu. by apply (d_pos _ _ _ D u).
    - intros u t [->|Hu]%elem_of_cons Ht.
      + apply dlt_dle, Hmin. rewrite <-Ea. apply Ha. by right.
      + apply (d_order _ _ _ D); [done|]. apply Ha. by right.
    - apply D. }
  destruct (relaxes_inv (v :: P) P _ v (adj v) D1) as (s1 & E1 & D2 & K2 & L2 & R2); [apply elem_of_list_here| |done|].
  { cbn [queue]. rewrite Hk. intros u [->|Hu]%elem_of_cons; [destruct (key (queue s) v); cbn; [lra|done]|]. by apply (d_order _ _ _ D). }
  rewrite E1. cbn [mbind option_bind]. apply (IH (v :: P)); [|cbn [length]; lia].
  destruct D2. constructor; try done. intros u w c [->|Hu]%elem_of_cons Hin; [by apply R2|by apply d_final0].
Qed.

Lemma dijkstra_inv fuel : n < fuel → ∃ s P, dijkstra adj fuel g = Some s ∧ dinv P P s ∧ arr (queue s) = [].
Proof.
  intros Hf. unfold dijkstra. set (h0 := new (K := option Q) (λ _, None)).
  assert (inv h0) as Hi0. { split; [by intros j _ _ a b|split; [apply NoDup_nil_2|by intros i e]|done]. }
  destruct (push_spec dlt dlt_asym dlt_trans (λ _, True) h0 g (Some 0%Q) Hi0) as (h & E & Hi & Hp & Hk); [by apply not_elem_of_nil|].
  rewrite E. cbn [mbind option_bind]. assert (∀ u, u ∈ arr h ↔ u = g) as Ha. { intros u. rewrite Hp. apply elem_of_list_singleton. }
  assert (∀ v, key h v = if decide (v = g) then Some 0%Q else None) as Kv by (intros v; rewrite Hk; done).
  destruct (dloop_inv fuel [] (Paths h (λ _, None))) as (s & P & Es & D & He); [|cbn; lia|by exists s, P].
  constructor; cbn [queue prev].
  - done.
  - apply NoDup_nil_2.
  - done.
  - by intros v ?%elem_of_nil.
  - intros v ->%Ha. done.
  - intros v. rewrite Kv, Ha. destruct (decide (v = g)); [split; [by right|done]|]. split; [done|]. intros [?%elem_of_nil|?]; done.
  - rewrite Kv. by rewrite decide_True.
  - intros v x. rewrite Kv. destruct (decide (v = g)) as [->|]; [|done]. intros [= <-]. by constructor.
  - intros v x. rewrite Kv. destruct (decide (v = g)) as [->|]; [|done]. intros [= <-]. lra.
  - by intros v w ?%elem_of_nil.
  - by intros v w c ?%elem_of_nil.
Qed.

(** ** C116 *)
(** The search for distances ends within as many rounds as there are vertices.  Where it gives a distance there is a walk of that cost, which
    following prev yields, and none is cheaper; where it gives none there is no walk. *)
Theorem C116_distances fuel : n < fuel → ∃ s, dijkstra adj fuel g = Some s ∧
  (∀ v x, key (queue s) v = Some x → trail (prev s) v x ∧ walk v x ∧ ∀ y, walk v y → (x <= y)%Q) ∧
  (∀ v, key (queue s) v = None → ∀ y, ¬ walk v y).
Proof.
  intros Hf. destruct (dijkstra_inv fuel Hf) as (s & P & E & D & He). exists s. split; [done|].
  assert (∀ v y, walk v y → ∃ x, key (queue s) v = Some x ∧ (x <= y)%Q) as Hopt.
  { induction 1 as [|v y w c _ (x & Hx & Hle) Hin].
    - exists 0%Q. split; [apply D|lra].
    - assert (v ∈ P) as HvP. { destruct (proj1 (d_known _ _ _ D v)) as [?|Hq]; [by rewrite Hx|done|]. rewrite He in Hq. by apply elem_of_nil in Hq. }
      pose proof (d_final _ _ _ D v w c HvP Hin) as Hd. rewrite Hx in Hd. cbn in Hd. destruct (key (queue s) w) as [z|]; [|done]. exists z. split; [done|]. cbn in Hd. lra. }
  split.
  - intros v x Hv. pose proof (ptrail_trail _ _ _ _ (d_trail _ _ _ D v x Hv)) as Ht. split; [done|]. split; [by eapply trail_walk|].
    intros y (x' & Hx' & Hle)%Hopt. rewrite Hv in Hx'. by injection Hx' as <-.
  - intros v Hv y (x & Hx & _)%Hopt. congruence.
Qed.
End proofs.

(** Example: a triangle with a cheaper way round, and an isolated vertex. *)
Definition triangle (v : nat) : list (nat * Q) :=
  match v with 0 => [(1, inject_Z 5); (2, inject_Z 1)] | 1 => [(0, inject_Z 5); (2, inject_Z 2)] | 2 => [(0, inject_Z 1); (1, inject_Z 2)] | _ => [] end.
Example triangle_distances : (λ s, (λ v, (key (queue s) v, prev s v)) <$> [0; 1; 2; 3]) <$> dijkstra triangle 5 0 =
  Some [(Some (inject_Z 0), None); (Some (inject_Z 3), Some 2); (Some (inject_Z 1), Some 0); (None, None)].
Proof. vm_compute. reflexivity. Qed.
Example triangle_ok v w c : v < 4 → (w, c) ∈ triangle v → w < 4 ∧ (0 <= c)%Q.
Proof.
  intros Hv. destruct v as [|[|[|[|v]]]]; cbn [triangle]; rewrite ?elem_of_cons, ?elem_of_nil; intros H; repeat destruct H as [[= -> ->]|H]; try done; (split; [lia|by apply Qle_bool_iff]).
Qed.

Print Assumptions C116_distances.
