(** C81 and the rest of C64, with the costs as real numbers: the heuristic is admissible but not consistent, and an
    operator followed by its reverse never pays off. *)
From stdpp Require Import prelude.
From Coq Require Import ZArith Lia ZifyBool ZifyNat Reals Lra Rgeom.
From Verif Require Import Text.Model Segments.Model Segments.Props.
Local Open Scope R_scope.

(** The value of a cost, segments.cc:168, 176-180. *)
Definition rcost (c : scost) : R := sqrt (IZR (travel2 c)) + IZR (units c) + IZR (diags c) * sqrt 2.
Definition steps (c : scost) : R := IZR (units c) + IZR (diags c) * sqrt 2.
Definition far (x y : Z) (p : pose) : R := dist_euc (IZR x) (IZR y) (IZR (px p)) (IZR (py p)).

Lemma sqrt2_bounds : 1 <= sqrt 2 <= 2.
Proof.
  split.
  - rewrite <-sqrt_1 at 1. apply sqrt_le_1; lra.
  - rewrite <-(sqrt_square 2) at 2 by lra. apply sqrt_le_1; lra.
Qed.
Lemma far_sqrt x y p : sqrt (IZR ((x - px p) * (x - px p) + (y - py p) * (y - py p))) = far x y p.
Proof. unfold far, dist_euc, Rsqr. by rewrite plus_IZR, !mult_IZR, !minus_IZR. Qed.
Lemma far_nonneg x y p : 0 <= far x y p.
Proof. unfold far, dist_euc. apply sqrt_pos. Qed.
Lemma far_triangle x y p q : far x y p <= far x y q + far (px q) (py q) p.
Proof. apply triangle. Qed.

(** ** Rotations *)
Section angles.
Local Open Scope Z_scope.
Definition circ (n x : Z) : Z := Z.min (x mod n) ((- x) mod n).
Lemma circ_le n x y : 0 < n → (∃ k, y = x + k * n) → circ n x ≤ Z.abs y.
Proof.
  intros Hn (k & ->). unfold circ. pose proof (Z.div_mod x n ltac:(lia)). pose proof (Z.div_mod (- x) n ltac:(lia)).
  pose proof (Z.mod_pos_bound x n Hn). pose proof (Z.mod_pos_bound (- x) n Hn).
  destruct (Z_le_gt_dec 0 (x + k * n)).
  - rewrite Z.abs_eq by lia. enough (x mod n ≤ x + k * n) by lia.
    rewrite <- (Z.mod_add x k n) by lia. apply Z.mod_le; lia.
  - rewrite Z.abs_neq by lia. enough ((- x) mod n ≤ - (x + k * n)) by lia.
    replace ((- x) mod n) with ((- (x + k * n)) mod n). 2:{ rewrite <- (Z.mod_add (- x) (- k) n) by lia. f_equal. ring. }
    apply Z.mod_le; lia.
Qed.
Lemma circ_abs n x : 0 < n → ∃ y k, y = x + k * n ∧ circ n x = Z.abs y.
Proof.
  intros Hn. unfold circ. pose proof (Z.div_mod x n ltac:(lia)). pose proof (Z.div_mod (- x) n ltac:(lia)).
  pose proof (Z.mod_pos_bound x n Hn). pose proof (Z.mod_pos_bound (- x) n Hn).
  destruct (Z.min_spec (x mod n) ((- x) mod n)) as [[_ ->] | [_ ->]].
  - exists (x mod n), (- (x / n)). split; lia.
  - exists (- ((- x) mod n)), ((- x) / n). split; lia.
Qed.
Lemma circ_step n x e : 0 < n → circ n x ≤ Z.abs e + circ n (x - e).
Proof.
  intros Hn. destruct (circ_abs n (x - e) Hn) as (y & k & -> & ->).
  pose proof (circ_le n x (x - e + k * n + e) Hn ltac:(exists k; lia)). lia.
Qed.
Lemma circ_cong n x y : 0 < n → x mod n = y mod n → circ n x = circ n y.
Proof.
  intros Hn E. unfold circ. f_equal; [done|].
  replace ((- x) mod n) with ((- (x mod n)) mod n). 2:{ rewrite (Z.mod_eq x n) by lia. rewrite <- (Z.mod_add (- x) (x / n) n) by lia. f_equal. ring. }
  replace ((- y) mod n) with ((- (y mod n)) mod n). 2:{ rewrite (Z.mod_eq y n) by lia. rewrite <- (Z.mod_add (- y) (y / n) n) by lia. f_equal. ring. }
  by rewrite E.
Qed.
End angles.

Section heuristic.
Context {L : Type} (nangles : Z) (segs : list seg) (line : nat → pose → L) (ok : oper → list pose → list L → bool).
Notation state := (@state L).
Notation edge := (edge nangles segs line).

(** Coordinates that fit an int, and a rotation below the number of angles. *)
Definition inside (p : pose) : Prop := (0 ≤ px p < 2 ^ 31 ∧ 0 ≤ py p < 2 ^ 31 ∧ 0 ≤ rot p < nangles)%Z.
Definition space (s : state) : Prop := ∀ p, p ∈ poses s → inside p.

(** A plan: each operator is one that the domain offers, and no segment leaves the coordinates of [inside]. *)
Inductive plan : state → list oper → R → state → Prop :=
| plan_nil s : space s → plan s [] 0 s
| plan_cons s o os c r rc s' C t :
    space s → o ∈ operators ok s → edge s o = Some (c, r, rc, s') → plan s' os C t → plan s (o :: os) (rcost c + C) t.

(** The operators are those of segments.cc:271-291. *)
Lemma operators_spec s o : o ∈ operators ok s →
  (op o = Rotate ∧ (delta o = 1 ∨ delta o = -1) ∧ dy o = 0 ∨
   op o = Move ∧ (-1 ≤ delta o ≤ 1) ∧ (-1 ≤ dy o ≤ 1) ∧ (delta o ≠ 0 ∨ dy o ≠ 0))%Z ∧
  ok o (poses s) (lines s) = true.
Proof.
  unfold operators. rewrite elem_of_list_filter. intros [Hok Hin]. split; [|done].
  apply elem_of_list_join in Hin as (l & Hin & Hl). apply elem_of_list_fmap in Hl as (i & -> & _).
  unfold moves in Hin. cbn [fmap list_fmap fst snd] in Hin. rewrite !elem_of_cons, elem_of_nil in Hin.
  repeat destruct Hin as [-> | Hin]; cbn [op delta dy]; try done;
    first [left; split; [reflexivity|]; split; lia|right; split; [reflexivity|]; split_and!; lia].
Qed.

Lemma edge_spec s o c r rc s' : op o ≠ None_ → edge s o = Some (c, r, rc, s') →
  ∃ p, poses s !! oseg o = Some p ∧ poses s' = <[oseg o := newpose nangles o p]> (poses s) ∧
    gx s' = px (newpose nangles o p) ∧ gy s' = py (newpose nangles o p) ∧
    sqrt (IZR (travel2 c)) = far (gx s) (gy s) p ∧
    units c = (if bool_decide (op o = Rotate) || (delta o =? 0)%Z || (dy o =? 0)%Z then 1%Z else 0%Z) ∧
    diags c = (1 - units c)%Z.
Proof.
  intros Hk He. unfold Model.edge in He. destruct (cost o s) as [c0|] eqn:Hc; [|done]. cbn [mbind option_bind] in He.
  destruct (poses s !! oseg o) as [p|] eqn:Hp; [|by destruct (op o)].
  assert (c0 = c ∧ poses s' = <[oseg o := newpose nangles o p]> (poses s) ∧
    gx s' = px (newpose nangles o p) ∧ gy s' = py (newpose nangles o p)) as (-> & H1 & H2 & H3).
  { destruct (op o); [done|..]; cbn [mbind option_bind] in He; (destruct (segs !! oseg o); [|done]); cbn [mbind option_bind] in He;
      (destruct (cost (reverse_op o) _); [|done]); cbn [mbind option_bind] in He; by injection He as <- _ _ <-. }
  exists p. split_and!; [done..| | |].
  - unfold cost in Hc. rewrite Hp in Hc. cbn [mbind option_bind] in Hc.
    assert (travel2 c = ((gx s - px p) * (gx s - px p) + (gy s - py p) * (gy s - py p))%Z) as ->; [|apply far_sqrt].
    assert ((if bool_decide (gx s ≠ px p) || bool_decide (gy s ≠ py p)
             then (gx s - px p) * (gx s - px p) + (gy s - py p) * (gy s - py p) else 0)%Z =
             ((gx s - px p) * (gx s - px p) + (gy s - py p) * (gy s - py p))%Z) as E.
    { repeat case_bool_decide; try done. cbn. lia. }
    rewrite E in Hc. destruct (op o); [done|..]; [injection Hc as <-; done|].
    destruct ((delta o =? 0)%Z || (dy o =? 0)%Z); injection Hc as <-; done.
  - unfold cost in Hc. rewrite Hp in Hc. cbn [mbind option_bind] in Hc.
    destruct (op o); [done|..]; [injection Hc as <-; done|]. rewrite bool_decide_eq_false_2 by done. cbn [orb].
    destruct ((delta o =? 0)%Z || (dy o =? 0)%Z); injection Hc as <-; done.
  - unfold cost in Hc. rewrite Hp in Hc. cbn [mbind option_bind] in Hc.
    destruct (op o); [done|..]; [injection Hc as <-; done|].
    destruct ((delta o =? 0)%Z || (dy o =? 0)%Z); injection Hc as <-; done.
Qed.

(** ** What is left to do for one segment *)
Definition work (i : nat) (p : pose) : R :=
  match segs !! i with
  | Some sg => IZR (todo nangles p (goal sg)).1 + IZR (todo nangles p (goal sg)).2 * sqrt 2
  | None => 0
  end.

Context (Hn : (0 < nangles < 2 ^ 30)%Z) (Hgoals : ∀ sg, sg ∈ segs → inside (goal sg)).

Lemma i32_id z : (0 ≤ z < 2 ^ 31)%Z → i32 z = z.
Proof.
  intros Hz. unfold i32. change (2 ^ 31)%Z with 2147483648%Z in *. change (2 ^ 32)%Z with 4294967296%Z. rewrite Z.mod_small by lia. lia.
Qed.
Lemma u32_id z : (0 ≤ z < 2 ^ 32)%Z → u32 z = z.
Proof. intros Hz. unfold u32. by apply Z.mod_small. Qed.

Lemma adist_circ p q : inside p → inside q → adist nangles p q = circ nangles (rot q - rot p).
Proof.
  intros (_ & _ & Hp) (_ & _ & Hq). unfold adist, circ. change (2 ^ 30)%Z with 1073741824%Z in *.
  rewrite !i32_small by (change (2 ^ 31)%Z with 2147483648%Z; lia). rewrite !wrapind_mod by lia.
  replace (- (rot q - rot p))%Z with (rot p - rot q)%Z by lia.
  destruct (Z.ltb_spec ((rot q - rot p) mod nangles) ((rot p - rot q) mod nangles)); lia.
Qed.
Lemma adist_nonneg p q : inside p → inside q → (0 ≤ adist nangles p q)%Z.
Proof.
  intros Hp Hq. rewrite adist_circ by done. unfold circ.
  pose proof (Z.mod_pos_bound (rot q - rot p) nangles ltac:(lia)). pose proof (Z.mod_pos_bound (- (rot q - rot p)) nangles ltac:(lia)). lia.
Qed.
Lemma adist_rotate o p q : op o = Rotate → (Z.abs (delta o) ≤ 1)%Z → inside p → inside (newpose nangles o p) → inside q →
  (adist nangles p q ≤ 1 + adist nangles (newpose nangles o p) q)%Z.
Proof.
  intros Hk Hd Hp Hp' Hq. rewrite !adist_circ by done. unfold newpose. rewrite Hk. cbn [rot].
  destruct Hp as (_ & _ & Hp), Hq as (_ & _ & Hq). change (2 ^ 30)%Z with 1073741824%Z in *.
  rewrite i32_small by (change (2 ^ 31)%Z with 2147483648%Z; lia). rewrite wrapind_mod by lia.
  rewrite (circ_cong nangles (rot q - (rot p + delta o) mod nangles) (rot q - rot p - delta o)); [|lia|].
  2:{ rewrite Zminus_mod_idemp_r. f_equal. lia. }
  pose proof (circ_step nangles (rot q - rot p) (delta o) ltac:(lia)). lia.
Qed.

(** The octile distance with diagonal steps of weight [k]. *)
Definition octile (k : Z) (p q : pose) : Z :=
  (Z.max (Z.abs (px q - px p)) (Z.abs (py q - py p)) - Z.min (Z.abs (px q - px p)) (Z.abs (py q - py p)) +
   k * Z.min (Z.abs (px q - px p)) (Z.abs (py q - py p)))%Z.
Lemma todo_octile k p q : inside p → inside q →
  ((todo nangles p q).1 + (todo nangles p q).2 * k = octile k p q + adist nangles p q)%Z.
Proof.
  intros (Hx & Hy & _) (Hx' & Hy' & _). unfold todo. rewrite !i32_id by done. unfold octile. cbn [fst snd].
  generalize (adist nangles p q). intros a.
  set (dx := Z.abs (px q - px p)). set (dz := Z.abs (py q - py p)).
  destruct (Z.ltb_spec dx dz), (Z.ltb_spec dz dx); try lia.
Qed.

Lemma newpose_move o p : op o = Move → (-1 ≤ delta o ≤ 1)%Z → (-1 ≤ dy o ≤ 1)%Z → inside p → inside (newpose nangles o p) →
  px (newpose nangles o p) = (px p + delta o)%Z ∧ py (newpose nangles o p) = (py p + dy o)%Z ∧ rot (newpose nangles o p) = rot p.
Proof.
  intros Hk Hd Hd' (Hx & Hy & _) (Hx' & Hy' & _). unfold newpose in *. rewrite Hk in *. cbn [px py rot] in *. unfold u32 in *.
  change (2 ^ 31)%Z with 2147483648%Z in *. change (2 ^ 32)%Z with 4294967296%Z in *. split_and!; [| |done].
  - destruct (Z_le_gt_dec 0 (px p + delta o)); [rewrite Z.mod_small by lia; done|].
    assert (px p + delta o = -1)%Z as E by lia. rewrite E in Hx'. exfalso. vm_compute in Hx'. destruct Hx' as [_ Hx']. discriminate.
  - destruct (Z_le_gt_dec 0 (py p + dy o)); [rewrite Z.mod_small by lia; done|].
    assert (py p + dy o = -1)%Z as E by lia. rewrite E in Hy'. exfalso. vm_compute in Hy'. destruct Hy' as [_ Hy']. discriminate.
Qed.

(** One operator takes at most its own cost off the work, in weights for which the square root of two lies between. *)
Lemma work_step_weight (k : Z) s o c r rc s' p q : (k = 1 ∨ k = 2)%Z → o ∈ operators ok s → edge s o = Some (c, r, rc, s') →
  poses s !! oseg o = Some p → inside p → inside (newpose nangles o p) → inside q →
  ((todo nangles p q).1 + (todo nangles p q).2 * k ≤
   units c + diags c * k + ((todo nangles (newpose nangles o p) q).1 + (todo nangles (newpose nangles o p) q).2 * k))%Z.
Proof.
  intros Hk Ho He Hp Hin Hin' Hq. apply operators_spec in Ho as [Ho _].
  destruct (edge_spec s o c r rc s') as (p0 & Hp0 & _ & _ & _ & _ & Hu & Hdg); [|done|].
  { intros E. destruct Ho as [[E' _] | [E' _]]; congruence. }
  rewrite Hp in Hp0. apply (inj Some) in Hp0. subst p0. rewrite !todo_octile by done.
  destruct Ho as [(Hop & Hd & Hy) | (Hop & Hd & Hy & Hne)].
  - rewrite bool_decide_eq_true_2 in Hu by done. cbn [orb] in Hu.
    pose proof (adist_rotate o p q Hop ltac:(lia) Hin Hin' Hq) as Ha.
    replace (octile k (newpose nangles o p) q) with (octile k p q) by (unfold newpose; rewrite Hop; done). lia.
  - destruct (newpose_move o p Hop Hd Hy Hin Hin') as (Ex & Ey & Er).
    rewrite bool_decide_eq_false_2 in Hu by (rewrite Hop; done). cbn [orb] in Hu.
    assert (adist nangles p q = adist nangles (newpose nangles o p) q) as Ea by (unfold adist; by rewrite Er).
    assert (octile k p q ≤ units c + diags c * k + octile k (newpose nangles o p) q)%Z as Hoct; [|lia].
    unfold octile. rewrite Ex, Ey.
    assert (∃ X, px q - px p = X ∧ px q - (px p + delta o) = X - delta o)%Z as (X & -> & ->) by (eexists; split; [reflexivity|lia]).
    assert (∃ Y, py q - py p = Y ∧ py q - (py p + dy o) = Y - dy o)%Z as (Y & -> & ->) by (eexists; split; [reflexivity|lia]).
    rewrite Hdg, Hu. clear -Hd Hy Hne Hk.
    revert Hd Hy Hne. generalize (delta o) as a, (dy o) as b. intros a b Hd Hy Hne.
    assert (a = -1 ∨ a = 0 ∨ a = 1)%Z as Ha by lia. assert (b = -1 ∨ b = 0 ∨ b = 1)%Z as Hb by lia. clear Hd Hy.
    destruct Hk as [-> | ->], Ha as [-> | [-> | ->]], Hb as [-> | [-> | ->]]; cbn -[Z.sub Z.abs Z.max Z.min Z.mul Z.add]; lia.
Qed.

Lemma work_step s o c r rc s' p i : o ∈ operators ok s → edge s o = Some (c, r, rc, s') →
  poses s !! oseg o = Some p → inside p → inside (newpose nangles o p) → oseg o = i →
  work i p <= steps c + work i (newpose nangles o p).
Proof.
  intros Ho He Hp Hin Hin' <-. unfold work. destruct (segs !! oseg o) as [sg|] eqn:Hs.
  - pose proof (Hgoals sg ltac:(by eapply elem_of_list_lookup_2)) as Hg.
    pose proof (work_step_weight 1 s o c r rc s' p (goal sg) ltac:(by left) Ho He Hp Hin Hin' Hg) as H1.
    pose proof (work_step_weight 2 s o c r rc s' p (goal sg) ltac:(by right) Ho He Hp Hin Hin' Hg) as H2.
    apply IZR_le in H1, H2. rewrite !plus_IZR, !mult_IZR in H1, H2. unfold steps. pose proof sqrt2_bounds. nra.
  - unfold Model.edge in He. destruct (cost o s); [|done]. cbn [mbind option_bind] in He. rewrite Hp, Hs in He.
    apply operators_spec in Ho as [[[E _] | [E _]] _]; rewrite E in He; done.
Qed.

Lemma work_goal i sg : segs !! i = Some sg → work i (goal sg) = 0.
Proof.
  intros Hs. unfold work. rewrite Hs. pose proof (Hgoals sg ltac:(by eapply elem_of_list_lookup_2)) as Hg.
  assert (todo nangles (goal sg) (goal sg) = (0, 0)%Z) as ->; [|cbn; lra].
  unfold todo. rewrite !Z.sub_diag. cbn -[adist]. rewrite adist_circ by done. rewrite Z.sub_diag.
  done.
Qed.

Lemma steps_nonneg s o c r rc s' : o ∈ operators ok s → edge s o = Some (c, r, rc, s') → 0 <= steps c ∧ 0 <= rcost c ∧
  rcost c = sqrt (IZR (travel2 c)) + steps c ∧
  ∀ p, poses s !! oseg o = Some p → inside p → inside (newpose nangles o p) → far (px (newpose nangles o p)) (py (newpose nangles o p)) p <= steps c.
Proof.
  intros Ho He. apply operators_spec in Ho as [Ho _].
  destruct (edge_spec s o c r rc s') as (p0 & Hp0 & _ & _ & _ & Ht & Hu & Hdg); [|done|].
  { intros E. destruct Ho as [[E' _] | [E' _]]; congruence. }
  assert (0 <= sqrt (IZR (travel2 c))) by (rewrite Ht; apply far_nonneg). pose proof sqrt2_bounds.
  assert (units c = 1 ∧ diags c = 0 ∨ units c = 0 ∧ diags c = 1)%Z as Hud.
  { destruct (bool_decide (op o = Rotate) || (delta o =? 0)%Z || (dy o =? 0)%Z); lia. }
  assert (0 <= steps c) as Hst. { unfold steps. destruct Hud as [[-> ->] | [-> ->]]; lra. }
  split_and!; [done|unfold rcost; unfold steps in Hst; lra|unfold rcost, steps; lra|].
  intros p Hp Hin Hin'. rewrite Hp in Hp0. apply (inj Some) in Hp0. subst p0. unfold far, dist_euc.
  destruct Ho as [(Hop & Hd & Hy) | (Hop & Hd & Hy & Hne)].
  - unfold newpose. rewrite Hop. cbn [px py]. rewrite !Rminus_eq_0, Rsqr_0, Rplus_0_r, sqrt_0. lra.
  - destruct (newpose_move o p Hop Hd Hy Hin Hin') as (-> & -> & _). rewrite bool_decide_eq_false_2 in Hu by (rewrite Hop; done). cbn [orb] in Hu.
    rewrite !plus_IZR. replace (IZR (px p) + IZR (delta o) - IZR (px p)) with (IZR (delta o)) by ring.
    replace (IZR (py p) + IZR (dy o) - IZR (py p)) with (IZR (dy o)) by ring. unfold Rsqr. rewrite <- !mult_IZR, <- plus_IZR.
    assert (delta o = -1 ∨ delta o = 0 ∨ delta o = 1)%Z as Ha by lia. assert (dy o = -1 ∨ dy o = 0 ∨ dy o = 1)%Z as Hb by lia.
    unfold steps. rewrite Hdg, Hu.
    destruct Ha as [-> | [-> | ->]], Hb as [-> | [-> | ->]]; cbn [Z.eqb orb];
      repeat match goal with |- context [IZR ?z] => let z' := eval vm_compute in z in progress change z with z' end;
      rewrite ?sqrt_1, ?sqrt_0; lra.
Qed.

(** The work that is left for the segments in [M], from segment [i] on. *)
Fixpoint total (M : nat → bool) (i : nat) (ps : list pose) : R :=
  match ps with [] => 0 | p :: ps => (if M i then work i p else 0) + total M (S i) ps end.

Lemma total_insert M ps : ∀ i j p p', ps !! j = Some p →
  total M i (<[j := p']> ps) = total M i ps + (if M (i + j)%nat then work (i + j) p' - work (i + j) p else 0).
Proof.
  induction ps as [|q ps IH]; intros i j p p' Hp; [done|]. destruct j as [|j].
  - injection Hp as ->. change (<[0%nat := p']> (p :: ps)) with (p' :: ps). cbn [total]. rewrite Nat.add_0_r. destruct (M i); lra.
  - change (<[S j := p']> (q :: ps)) with (q :: <[j := p']> ps). cbn [total]. rewrite (IH (S i) j p p' Hp).
    replace (S i + j)%nat with (i + S j)%nat by lia. lra.
Qed.

Lemma total_goal M ps : ∀ i, ps = goal <$> drop i segs → total M i ps = 0.
Proof.
  induction ps as [|q ps IH]; intros i E; [done|]. cbn [total].
  destruct (drop i segs) as [|sg rest] eqn:Ed; [done|]. injection E as -> ->.
  assert (segs !! i = Some sg) as Hi. { rewrite <- (Nat.add_0_r i) at 1. by rewrite <- lookup_drop, Ed. }
  rewrite IH; [|]. 2:{ change (S i) with (1 + i)%nat. rewrite Nat.add_comm, <- drop_drop, Ed. done. }
  rewrite (work_goal i sg Hi). destruct (M i); lra.
Qed.

Lemma space_step s o c r rc s' p : op o ≠ None_ → space s' → edge s o = Some (c, r, rc, s') → poses s !! oseg o = Some p → inside (newpose nangles o p).
Proof.
  intros Hk Hsp He Hp. destruct (edge_spec _ _ _ _ _ _ Hk He) as (p0 & Hp0 & Hps & _). rewrite Hp in Hp0. apply (inj Some) in Hp0. subst p0.
  apply Hsp. rewrite Hps. eapply elem_of_list_lookup_2. apply list_lookup_insert. by eapply lookup_lt_Some.
Qed.
Lemma plan_space s os C t : plan s os C t → space s.
Proof. by destruct 1. Qed.

(** The cost of a plan is at least the work it does. *)
Lemma plan_total M s os C t : plan s os C t → poses t = goal <$> segs → total M 0 (poses s) <= C.
Proof.
  intros Hp Ht. induction Hp as [s Hsp|s o os c r rc s' C t Hsp Ho He Hp IH].
  - rewrite Ht. rewrite total_goal; [lra|]. by rewrite drop_0.
  - specialize (IH Ht). destruct (steps_nonneg _ _ _ _ _ _ Ho He) as (Hs0 & Hr0 & Hrc & _).
    assert (op o ≠ None_) as Hk. { destruct (operators_spec _ _ Ho) as [[[E _] | [E _]] _]; congruence. }
    destruct (edge_spec _ _ _ _ _ _ Hk He) as (p & Hp0 & Hps & _ & _ & Htr & _).
    rewrite Hps in IH. rewrite (total_insert M (poses s) 0 (oseg o) p _ Hp0) in IH. rewrite Nat.add_0_l in IH.
    pose proof (far_nonneg (gx s) (gy s) p). rewrite Hrc, Htr.
    destruct (M (oseg o)); [|lra].
    pose proof (work_step s o c r rc s' p (oseg o) Ho He Hp0 (Hsp p ltac:(by eapply elem_of_list_lookup_2)) (space_step _ _ _ _ _ _ p Hk (plan_space _ _ _ _ Hp) He Hp0) eq_refl). lra.
Qed.

(** And the gripper has to come to one of the segments that are misplaced. *)
Lemma plan_total_grip M s os C t D : plan s os C t → poses t = goal <$> segs →
  (∃ k p sg, M k = true ∧ poses s !! k = Some p ∧ segs !! k = Some sg ∧ p ≠ goal sg) →
  (∀ k p, M k = true → poses s !! k = Some p → D <= far (gx s) (gy s) p) →
  total M 0 (poses s) + D <= C.
Proof.
  intros Hp Ht. revert D. induction Hp as [s Hsp|s o os c r rc s' C t Hsp Ho He Hp IH]; intros D (k & pk & sg & Hk & Hpk & Hsg & Hne) HD.
  - exfalso. rewrite Ht, list_lookup_fmap, Hsg in Hpk. by injection Hpk as <-.
  - specialize (IH Ht). destruct (steps_nonneg _ _ _ _ _ _ Ho He) as (Hs0 & Hr0 & Hrc & Hfar).
    assert (op o ≠ None_) as Hop. { destruct (operators_spec _ _ Ho) as [[[E _] | [E _]] _]; congruence. }
    destruct (edge_spec _ _ _ _ _ _ Hop He) as (p & Hp0 & Hps & Hgx & Hgy & Htr & _).
    pose proof (Hsp p ltac:(by eapply elem_of_list_lookup_2)) as Hin.
    pose proof (space_step _ _ _ _ _ _ p Hop (plan_space _ _ _ _ Hp) He Hp0) as Hin'.
    rewrite Hrc, Htr. destruct (M (oseg o)) eqn:HM.
    + pose proof (plan_total M s' os C t Hp Ht) as Hrest. rewrite Hps in Hrest.
      rewrite (total_insert M (poses s) 0 (oseg o) p _ Hp0) in Hrest. rewrite Nat.add_0_l, HM in Hrest.
      pose proof (work_step s o c r rc s' p (oseg o) Ho He Hp0 Hin Hin' eq_refl). pose proof (HD _ _ HM Hp0). lra.
    + specialize (IH (D - far (gx s) (gy s) p - steps c)). rewrite Hps in IH.
      rewrite (total_insert M (poses s) 0 (oseg o) p _ Hp0) in IH. rewrite Nat.add_0_l, HM in IH.
      enough (total M 0 (poses s) + 0 + (D - far (gx s) (gy s) p - steps c) <= C) by lra. apply IH.
      * exists k, pk, sg. split_and!; [done| |done|done]. rewrite list_lookup_insert_ne; [done|]. congruence.
      * intros j q Hj Hq. rewrite list_lookup_insert_ne in Hq by congruence. rewrite Hgx, Hgy.
        pose proof (HD j q Hj Hq) as Hd. specialize (Hfar p Hp0 Hin Hin').
        pose proof (far_triangle (gx s) (gy s) q p) as T1.
        pose proof (far_triangle (px p) (py p) q (newpose nangles o p)) as T2.
        assert (far (px p) (py p) (newpose nangles o p) = far (px (newpose nangles o p)) (py (newpose nangles o p)) p) as Esym by apply distance_symm.
        lra.
Qed.

(** ** The heuristic *)
Lemma hloop_spec (s : state) ps : ∀ i u d0 g, (length ps ≤ length (drop i segs))%nat →
  ∃ u' d' g', hloop nangles segs s i ps u d0 g = Some (u', d', g') ∧
    IZR u' + IZR d' * sqrt 2 = IZR u + IZR d0 * sqrt 2 +
      total (λ j, match ps !! (j - i)%nat, segs !! j with Some p, Some sg => bool_decide (p ≠ goal sg) | _, _ => false end) i ps ∧
    (∀ z, g = Some z → ∃ z', g' = Some z' ∧ (z' ≤ z)%Z) ∧
    (∀ j p sg, ps !! j = Some p → segs !! (i + j)%nat = Some sg → p ≠ goal sg → ∃ z', g' = Some z' ∧ (z' ≤ grip2 s p)%Z) ∧
    (∀ z', g' = Some z' → g = Some z' ∨ ∃ j p sg, ps !! j = Some p ∧ segs !! (i + j)%nat = Some sg ∧ p ≠ goal sg ∧ z' = grip2 s p).
Proof.
  induction ps as [|p ps IH]; intros i u d0 g Hl.
  { exists u, d0, g. split_and!; [done|cbn; lra|intros z ->; by exists z|done|by left]. }
  cbn [hloop]. destruct (drop i segs) as [|sg rest] eqn:Ed; [simpl in Hl; lia|].
  assert (segs !! i = Some sg) as Hi. { rewrite <- (Nat.add_0_r i) at 1. by rewrite <- lookup_drop, Ed. }
  assert (drop (S i) segs = rest) as Ed'. { change (S i) with (1 + i)%nat. rewrite Nat.add_comm, <- drop_drop, Ed. done. }
  rewrite Hi. cbn [mbind option_bind].
  assert (∀ (M1 M2 : nat → bool) qs k, (∀ j, (k ≤ j < k + length qs)%nat → M1 j = M2 j) → total M1 k qs = total M2 k qs) as Hext.
  { intros M1 M2 qs. clear. induction qs as [|q qs IHq]; intros k HM; [done|]. cbn [total]. rewrite (HM k) by (simpl; lia).
    rewrite IHq; [done|]. intros j Hj. apply HM. simpl. lia. }
  assert (∀ M1 : nat → bool, M1 = (λ j, match (p :: ps) !! (j - i)%nat, segs !! j with Some q, Some sg => bool_decide (q ≠ goal sg) | _, _ => false end) →
    total M1 i (p :: ps) = (if decide (p = goal sg) then 0 else work i p) +
     total (λ j, match ps !! (j - S i)%nat, segs !! j with Some q, Some sg => bool_decide (q ≠ goal sg) | _, _ => false end) (S i) ps) as Htot.
  { intros M1 ->. cbn [total]. rewrite Nat.sub_diag. cbn [lookup list_lookup]. rewrite Hi. f_equal.
    - destruct (decide (p = goal sg)); [rewrite bool_decide_eq_false_2 by (intros ?; done)|rewrite bool_decide_eq_true_2 by done]; done.
    - apply Hext. intros j Hj. replace (j - i)%nat with (S (j - S i)) by lia. done. }
  rewrite (Htot _ eq_refl). destruct (decide (p = goal sg)) as [E|E].
  - destruct (IH (S i) u d0 g ltac:(rewrite Ed'; simpl in Hl; lia)) as (u' & d' & g' & Hh & Hv & H1 & H2 & H3).
    exists u', d', g'. split_and!; [done|rewrite Hv; lra|done| |].
    + intros [|j] q sq Hq Hs Hne; [rewrite Nat.add_0_r, Hi in Hs; injection Hq as <-; injection Hs as <-; done|].
      eapply (H2 j); [done| |done]. by replace (S i + j)%nat with (i + S j)%nat by lia.
    + intros z' Hz'. destruct (H3 z' Hz') as [?|(j & q & sq & Hq & Hs & Hne & ->)]; [by left|]. right. exists (S j), q, sq. split_and!; [done| |done..].
      by replace (i + S j)%nat with (S i + j)%nat by lia.
  - assert (work i p = IZR (todo nangles p (goal sg)).1 + IZR (todo nangles p (goal sg)).2 * sqrt 2) as Hw by (unfold work; by rewrite Hi).
    destruct (todo nangles p (goal sg)) as [ut dt]. cbn [fst snd] in Hw.
    set (g1 := match g with Some a => if (grip2 s p <? a)%Z then Some (grip2 s p) else Some a | None => Some (grip2 s p) end).
    destruct (IH (S i) (u + ut)%Z (d0 + dt)%Z g1 ltac:(rewrite Ed'; simpl in Hl; lia)) as (u' & d' & g' & Hh & Hv & H1 & H2 & H3).
    assert (∃ z1, g1 = Some z1 ∧ (z1 ≤ grip2 s p)%Z ∧ (∀ z, g = Some z → (z1 ≤ z)%Z) ∧ (g = Some z1 ∨ z1 = grip2 s p)) as (z1 & Hg1 & Hz1 & Hz1' & Hz1o).
    { subst g1. destruct g as [a|]; [destruct (Z.ltb_spec (grip2 s p) a)|]; eexists; (split; [reflexivity|]); (split; [lia|]); (split; [|auto]); intros z [= <-]; lia. }
    destruct (H1 z1 Hg1) as (z' & Hz' & Hle). exists u', d', g'. split_and!; [done| | | |].
    + rewrite Hv, !plus_IZR, Hw. lra.
    + intros z Hz. exists z'. split; [done|]. specialize (Hz1' z Hz). lia.
    + intros [|j] q sq Hq Hs Hne; [injection Hq as <-; exists z'; split; [done|lia]|].
      eapply (H2 j); [done| |done]. by replace (S i + j)%nat with (i + S j)%nat by lia.
    + intros z Hz. destruct (H3 z Hz) as [Hg|(j & q & sq & Hq & Hs & Hne & ->)].
      * rewrite Hg1 in Hg. injection Hg as <-. destruct Hz1o as [?| ->]; [by left|]. right. exists 0%nat, p, sg. split_and!; [done| |done..]. by rewrite Nat.add_0_r.
      * right. exists (S j), q, sq. split_and!; [done| |done..]. by replace (i + S j)%nat with (S i + j)%nat by lia.
Qed.

(** The heuristic is a lower bound on the cost of every plan that takes all the segments to their goals. *)
Theorem C81_admissible s os C t :
  good segs line s → plan s os C t → isgoal t = true →
  ∃ c, h nangles segs s = Some (Some c) ∧ rcost c <= C.
Proof.
  intros Hg Hp Ht. assert (good segs line t) as (Hlt & _ & Hnt).
  { clear Ht. induction Hp as [|s o os c r rc s' C t Hsp Ho He Hp IH]; [done|]. apply IH. by eapply edge_good. }
  destruct Hg as (Hl & Hli & Hnl).
  assert (poses t = goal <$> segs) as Hpt.
  { apply (misplaced_zero segs); [done|]. rewrite <- Hnt. unfold isgoal in Ht. by apply Nat.eqb_eq in Ht. }
  unfold h. destruct (Nat.eqb_spec (nleft s) 0) as [E|E].
  - exists (SCost 0 0 0). split; [done|]. unfold rcost. cbn. rewrite sqrt_0.
    assert (0 <= C); [|lra]. clear -Hp. induction Hp as [|s o os c r rc s' C t Hsp Ho He Hp IH]; [lra|].
    destruct (steps_nonneg _ _ _ _ _ _ Ho He) as (_ & ? & _). lra.
  - assert (∃ k p sg, poses s !! k = Some p ∧ segs !! k = Some sg ∧ p ≠ goal sg) as (k & pk & sgk & Hpk & Hsk & Hnk).
    { rewrite Hnl in E. unfold misplaced in E. destruct (filter (λ q, q.1 ≠ goal q.2) (zip (poses s) segs)) as [|[p sg] rest] eqn:Ef; [done|].
      assert ((p, sg) ∈ filter (λ q, q.1 ≠ goal q.2) (zip (poses s) segs)) as Hin by (rewrite Ef; left).
      apply elem_of_list_filter in Hin as [Hne Hin]. apply elem_of_list_lookup in Hin as (k & Hk). apply lookup_zip_with_Some in Hk as (? & ? & Heq & ? & ?).
      injection Heq as <- <-. by exists k, p, sg. }
    destruct (hloop_spec s (poses s) 0 0%Z 0%Z None) as (u & d0 & g & Hh & Hv & _ & Hmin & Hex); [rewrite drop_0; lia|].
    rewrite Hh. cbn [mbind option_bind]. destruct (Hmin k pk sgk Hpk Hsk Hnk) as (z & -> & _).
    exists (SCost z u d0). split; [done|]. unfold rcost. cbn [travel2 units diags].
    set (M := λ j, match poses s !! (j - 0)%nat, segs !! j with Some p, Some sg => bool_decide (p ≠ goal sg) | _, _ => false end) in Hv.
    enough (total M 0 (poses s) + sqrt (IZR z) <= C) by lra.
    eapply plan_total_grip; [done|done| |].
    + exists k, pk, sgk. split_and!; [|done..]. subst M. cbv beta. rewrite Nat.sub_0_r, Hpk, Hsk. by apply bool_decide_eq_true_2.
    + intros j p HM Hpj. subst M. cbv beta in HM. rewrite Nat.sub_0_r, Hpj in HM. destruct (segs !! j) as [sg|] eqn:Hsj; [|done].
      apply bool_decide_eq_true_1 in HM. destruct (Hmin j p sg Hpj Hsj HM) as (z' & Hz' & Hle). injection Hz' as <-.
      rewrite <- far_sqrt. apply sqrt_le_1.
      * destruct (Hex z eq_refl) as [?|(? & q & ? & _ & _ & _ & ->)]; [done|]. unfold grip2. apply IZR_le. apply Z.add_nonneg_nonneg; apply Z.square_nonneg.
      * apply IZR_le. apply Z.add_nonneg_nonneg; apply Z.square_nonneg.
      * apply IZR_le. exact Hle.
Qed.

(** ** A lower bound on the number of operators *)
Section distance.
Local Open Scope Z_scope.
Definition dwork (i : nat) (p : pose) : Z :=
  match segs !! i with
  | Some sg => Z.max (Z.abs (px (goal sg) - px p)) (Z.abs (py (goal sg) - py p)) + adist nangles p (goal sg)
  | None => 0
  end.
Fixpoint dtotal (i : nat) (ps : list pose) : Z :=
  match ps with [] => 0 | p :: ps => dwork i p + dtotal (S i) ps end.
Lemma dtotal_insert ps : ∀ i j p p', ps !! j = Some p →
  dtotal i (<[j := p']> ps) = dtotal i ps + (dwork (i + j) p' - dwork (i + j) p).
Proof.
  induction ps as [|q ps IH]; intros i j p p' Hp; [done|]. destruct j as [|j].
  - injection Hp as ->. change (<[0%nat := p']> (p :: ps)) with (p' :: ps). cbn [dtotal]. rewrite Nat.add_0_r. lia.
  - change (<[S j := p']> (q :: ps)) with (q :: <[j := p']> ps). cbn [dtotal]. rewrite (IH (S i) j p p' Hp).
    replace (S i + j)%nat with (i + S j)%nat by lia. lia.
Qed.
Lemma dwork_goal i sg : segs !! i = Some sg → dwork i (goal sg) = 0.
Proof.
  intros Hs. unfold dwork. rewrite Hs, !Z.sub_diag. pose proof (Hgoals sg ltac:(by eapply elem_of_list_lookup_2)) as Hg.
  rewrite adist_circ, Z.sub_diag by done. unfold circ. cbn [Z.opp]. rewrite !Z.mod_0_l by lia. done.
Qed.
Lemma dloop_spec ps : ∀ i n, (length ps ≤ length (drop i segs))%nat → dloop nangles segs i ps n = Some (n + dtotal i ps).
Proof.
  induction ps as [|p ps IH]; intros i n Hl; cbn [dloop dtotal]; [by rewrite Z.add_0_r|].
  destruct (drop i segs) as [|sg rest] eqn:Ed; [simpl in Hl; lia|].
  assert (segs !! i = Some sg) as Hi. { rewrite <- (Nat.add_0_r i) at 1. by rewrite <- lookup_drop, Ed. }
  assert (drop (S i) segs = rest) as Ed'. { change (S i) with (1 + i)%nat. rewrite Nat.add_comm, <- drop_drop, Ed. done. }
  rewrite Hi. cbn [mbind option_bind]. destruct (decide (p = goal sg)) as [->|E].
  - rewrite IH by (rewrite Ed'; simpl in Hl; lia). rewrite (dwork_goal i sg Hi). done.
  - rewrite IH by (rewrite Ed'; simpl in Hl; lia). f_equal. unfold dwork. rewrite Hi.
    destruct (Z.ltb_spec (Z.abs (py (goal sg) - py p)) (Z.abs (px (goal sg) - px p))); lia.
Qed.
Lemma dtotal_goal ps : ∀ i, ps = goal <$> drop i segs → dtotal i ps = 0.
Proof.
  induction ps as [|q ps IH]; intros i E; [done|]. cbn [dtotal].
  destruct (drop i segs) as [|sg rest] eqn:Ed; [done|]. injection E as -> ->.
  assert (segs !! i = Some sg) as Hi. { rewrite <- (Nat.add_0_r i) at 1. by rewrite <- lookup_drop, Ed. }
  rewrite IH; [|]. 2:{ change (S i) with (1 + i)%nat. rewrite Nat.add_comm, <- drop_drop, Ed. done. }
  by rewrite (dwork_goal i sg Hi).
Qed.

(** d never exceeds the number of operators of a plan. *)
Theorem C81_distance s os C t :
  good segs line s → plan s os C t → isgoal t = true →
  ∃ n, d nangles segs s = Some n ∧ n ≤ Z.of_nat (length os).
Proof.
  intros Hg Hp Ht. assert (good segs line t) as (Hlt & _ & Hnt).
  { clear Ht. induction Hp as [|s o os c r rc s' C t Hsp Ho He Hp IH]; [done|]. apply IH. by eapply edge_good. }
  destruct Hg as (Hl & Hli & Hnl).
  assert (poses t = goal <$> segs) as Hpt.
  { apply (misplaced_zero segs); [done|]. rewrite <- Hnt. unfold isgoal in Ht. by apply Nat.eqb_eq in Ht. }
  unfold d. destruct (Nat.eqb_spec (nleft s) 0) as [E|E]; [exists 0; split; [done|lia]|].
  rewrite dloop_spec by (rewrite drop_0; lia). eexists. split; [reflexivity|]. rewrite Z.add_0_l. clear E Hnl Hl Hli.
  induction Hp as [s Hsp|s o os c r rc s' C t Hsp Ho He Hp IH].
  - rewrite Hpt, dtotal_goal; [simpl; lia|]. by rewrite drop_0.
  - specialize (IH Ht Hlt Hnt Hpt). cbn [length].
    assert (op o ≠ None_) as Hop. { destruct (operators_spec _ _ Ho) as [[[E' _] | [E' _]] _]; congruence. }
    destruct (edge_spec _ _ _ _ _ _ Hop He) as (p & Hp0 & Hps & _). rewrite Hps, (dtotal_insert (poses s) 0 (oseg o) p _ Hp0) in IH.
    rewrite Nat.add_0_l in IH. pose proof (Hsp p ltac:(by eapply elem_of_list_lookup_2)) as Hin.
    pose proof (space_step _ _ _ _ _ _ p Hop (plan_space _ _ _ _ Hp) He Hp0) as Hin'.
    enough (dwork (oseg o) p ≤ 1 + dwork (oseg o) (newpose nangles o p)) by lia.
    unfold dwork. destruct (segs !! oseg o) as [sg|] eqn:Hs; [|lia].
    pose proof (Hgoals sg ltac:(by eapply elem_of_list_lookup_2)) as Hgo.
    destruct (operators_spec _ _ Ho) as [[(Hk & Hd & Hy) | (Hk & Hd & Hy & Hne)] _].
    + pose proof (adist_rotate o p (goal sg) Hk ltac:(lia) Hin Hin' Hgo).
      assert (px (newpose nangles o p) = px p ∧ py (newpose nangles o p) = py p) as [-> ->] by (unfold newpose; rewrite Hk; done). lia.
    + destruct (newpose_move o p Hk Hd Hy Hin Hin') as (Ex & Ey & Er).
      assert (adist nangles p (goal sg) = adist nangles (newpose nangles o p) (goal sg)) as -> by (unfold adist; by rewrite Er).
      rewrite Ex, Ey. generalize (adist nangles (newpose nangles o p) (goal sg)). lia.
Qed.
End distance.

(** ** Going back never pays *)
(** The operators offered and where they lead do not depend on the gripper. *)
Lemma plan_grip s os C t s1 : plan s os C t → poses s1 = poses s → lines s1 = lines s → nleft s1 = nleft s →
  ∃ C1 t1, plan s1 os C1 t1 ∧ C1 <= C + dist_euc (IZR (gx s1)) (IZR (gy s1)) (IZR (gx s)) (IZR (gy s)) ∧
    poses t1 = poses t ∧ lines t1 = lines t ∧ nleft t1 = nleft t.
Proof.
  intros Hp Hps Hls Hnl. destruct Hp as [s Hsp|s o os c r rc s' C t Hsp Ho He Hp].
  - exists 0, s1. split_and!; [|assert (0 <= dist_euc (IZR (gx s1)) (IZR (gy s1)) (IZR (gx s)) (IZR (gy s))) by (apply sqrt_pos); lra|done..].
    constructor. intros p. rewrite Hps. apply Hsp.
  - assert (o ∈ operators ok s1) as Ho1 by (unfold operators; rewrite Hps, Hls; exact Ho).
    assert (op o ≠ None_) as Hop. { destruct (operators_spec _ _ Ho) as [[[E' _] | [E' _]] _]; congruence. }
    assert (∃ c1, edge s1 o = Some (c1, r, rc, s')) as (c1 & He1).
    { destruct (edge_spec _ _ _ _ _ _ Hop He) as (p & Hp0 & _).
      assert (∃ c1, cost o s1 = Some c1) as (c1 & Hc1).
      { unfold cost. rewrite Hps, Hp0. cbn [mbind option_bind]. destruct (op o); by eexists. }
      exists c1. unfold Model.edge in He |- *. rewrite Hc1. destruct (cost o s) as [c0|]; [|done]. cbn [mbind option_bind] in He |- *.
      rewrite Hps, Hls, Hnl. rewrite Hp0 in He |- *.
      destruct (op o); [done|..]; cbn [mbind option_bind] in He |- *;
        (destruct (segs !! oseg o); [|done]); cbn [mbind option_bind] in He |- *;
        (destruct (cost (reverse_op o) _); [|done]); cbn [mbind option_bind] in He |- *; by injection He as _ <- <- <-. }
    exists (rcost c1 + C), t. split_and!; [|..|done|done|done].
    + econstructor; [|done|done|done]. intros p. rewrite Hps. apply Hsp.
    + destruct (edge_spec _ _ _ _ _ _ Hop He) as (p & Hp0 & _ & _ & _ & Ht & Hu & Hdg).
      destruct (edge_spec _ _ _ _ _ _ Hop He1) as (p1 & Hp1 & _ & _ & _ & Ht1 & Hu1 & Hdg1).
      rewrite Hps, Hp0 in Hp1. apply (inj Some) in Hp1. subst p1. unfold rcost. rewrite Ht, Ht1, Hdg, Hdg1, Hu, Hu1.
      pose proof (triangle (IZR (gx s1)) (IZR (gy s1)) (IZR (px p)) (IZR (py p)) (IZR (gx s)) (IZR (gy s))) as T. unfold far. lra.
Qed.

(** A plan that goes back right after a step can do without both, at no greater cost: not expanding the reverse
    operator, as the search algorithms do, is harmless. *)
Theorem C64_going_back_never_pays s o os C t :
  good segs line s → plan s (o :: reverse_op o :: os) C t →
  ∃ C' t', plan s os C' t' ∧ C' <= C ∧ poses t' = poses t ∧ lines t' = lines t ∧ nleft t' = nleft t.
Proof.
  intros Hg Hp. inversion Hp as [|? ? ? c r rc s' C1 ? Hsp Ho He Hp1]; subst. clear Hp.
  inversion Hp1 as [|? ? ? c' r' rc' s'' C2 ? Hsp' Ho' He' Hp2]; subst. clear Hp1.
  pose proof (operators_spec _ _ Ho) as [Hspec _].
  assert (op o ≠ None_) as Hop by (destruct Hspec as [[E' _] | [E' _]]; congruence).
  assert (r = reverse_op o) as ->.
  { unfold Model.edge in He. destruct (cost o s); [|done]. cbn [mbind option_bind] in He.
    destruct (op o); [done|..]; (destruct (poses s !! oseg o); [|done]); cbn [mbind option_bind] in He;
      (destruct (segs !! oseg o); [|done]); cbn [mbind option_bind] in He;
      (destruct (cost (reverse_op o) _); [|done]); cbn [mbind option_bind] in He; by injection He. }
  change (2 ^ 30)%Z with 1073741824%Z in Hn.
  destruct (C64_reverse nangles segs line s o c (reverse_op o) rc s' Hg) as (c2 & rc2 & s2 & p & He2 & Hrc & H1 & H2 & H3 & Hp0 & Hx & Hy & _); [|..|done|done|].
  { intros q Hq. destruct (Hsp q Hq) as (? & ? & ?). unfold pose_in. change (2 ^ 31)%Z with 2147483648%Z in *. change (2 ^ 32)%Z with 4294967296%Z. lia. }
  { unfold small. change (2 ^ 30)%Z with 1073741824%Z. destruct Hspec as [(_ & ? & _) | (_ & ? & _)]; lia. }
  rewrite He2 in He'. injection He' as <- <- <- <-.
  destruct (plan_grip _ _ _ _ s Hp2) as (C' & t' & Hp' & Hc' & ?); [done|done|done|]. exists C', t'. split; [done|]. split; [|done].
  destruct (edge_spec _ _ _ _ _ _ Hop He) as (p1 & Hp1 & _ & _ & _ & Ht & _). rewrite Hp0 in Hp1. apply (inj Some) in Hp1. subst p1.
  destruct (steps_nonneg _ _ _ _ _ _ Ho He) as (Hs0 & _ & Hr & _). destruct (steps_nonneg _ _ _ _ _ _ Ho' He2) as (_ & Hr' & _).
  rewrite Hx, Hy in Hc'. rewrite Hr, Ht. unfold far. lra.
Qed.
End heuristic.

(** ** Examples *)
Definition ex_ok (_ : oper) (_ : list pose) (_ : list (nat * pose)) : bool := true.

Lemma ex_goals sg : sg ∈ ex_segs → inside 8 (goal sg).
Proof. unfold ex_segs, inside. rewrite !elem_of_cons, elem_of_nil. intros [-> | [-> | []]]; cbn; lia. Qed.

(** The example of Props.v as a plan: the hypotheses of [C81_admissible] and [C81_distance]. *)
Example ex_plan : ∃ s C t, initialstate ex_segs ex_line = Some s ∧ good ex_segs ex_line s ∧
  plan 8 ex_segs ex_line ex_ok s ex_ops C t ∧ isgoal t = true ∧ nleft s = 1%nat.
Proof.
  assert (∀ (ps : list pose) (s : @state (nat * pose)), poses s = ps → forallb (λ p, (0 <=? px p) && (px p <? 100) && (0 <=? py p) && (py p <? 100) && (0 <=? rot p) && (rot p <? 8))%Z ps = true → space 8 s) as Hsp.
  { intros ps s <- Hall p Hp. rewrite forallb_forall in Hall. specialize (Hall p (proj1 (elem_of_list_In _ _) Hp)). unfold inside.
    change (2 ^ 31)%Z with 2147483648%Z. lia. }
  assert (∀ (s : @state (nat * pose)) o, existsb (λ o', bool_decide (op o' = op o) && bool_decide (oseg o' = oseg o) && (delta o' =? delta o)%Z && (dy o' =? dy o)%Z) (operators ex_ok s) = true → o ∈ operators ex_ok s) as Ho.
  { intros s [k sg dl y] Hex. rewrite existsb_exists in Hex. destruct Hex as ([k' sg' dl' y'] & Hin & Heq). cbn [op oseg delta dy] in Heq.
    apply elem_of_list_In in Hin. rewrite !andb_true_iff, !bool_decide_eq_true, !Z.eqb_eq in Heq. destruct Heq as [[[-> ->] ->] ->]. done. }
  eexists _, _, _. split; [vm_compute; reflexivity|]. split; [split_and!; reflexivity|]. split; [|split; [|reflexivity]].
  - unfold ex_ops. repeat (eapply plan_cons; [eapply Hsp; reflexivity|apply Ho; vm_compute; reflexivity|vm_compute; reflexivity|]).
    apply plan_nil. eapply Hsp; reflexivity.
  - reflexivity.
Qed.

(** Misplacing a segment that was at its goal lets the gripper's distance vanish: h drops by more than the cost. *)
Definition far_segs : list seg := [Seg (Pose 0 0 0) (Pose 0 0 0); Seg (Pose 10 0 0) (Pose 10 1 0)].
Theorem C81_inconsistent_refuted : ∃ s o c r rc s' hs hs',
  initialstate far_segs ex_line = Some s ∧ o ∈ operators ex_ok s ∧ edge 8 far_segs ex_line s o = Some (c, r, rc, s') ∧
  h 8 far_segs s = Some (Some hs) ∧ h 8 far_segs s' = Some (Some hs') ∧ rcost c + rcost hs' < rcost hs.
Proof.
  eexists _, (Oper Move 0 1 0), _, _, _, _, _, _. split; [vm_compute; reflexivity|].
  split. { vm_compute. do 8 right. left. }
  split; [vm_compute; reflexivity|]. split; [vm_compute; reflexivity|]. split; [vm_compute; reflexivity|].
  unfold rcost. cbn [travel2 units diags]. replace 100 with (10 * 10) by lra. rewrite sqrt_square, sqrt_0 by lra. lra.
Qed.

Print Assumptions C81_admissible.
Print Assumptions C81_distance.
Print Assumptions C64_going_back_never_pays.
Print Assumptions C81_inconsistent_refuted.
