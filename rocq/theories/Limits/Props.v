(** Properties of search limits and lookahead limits. *)
From Coq Require Import ZArith Lia QArith Qround Lqa.
From stdpp Require Import sorting prelude.
From Verif.Text Require Import Model.
From Verif.Limits Require Import Model.
Local Open Scope Z_scope.

(** ** Numbers *)

(** The number that the decimal digits [ds] write, the first digit being the most significant. *)
Fixpoint decimal (ds : list Z) : Z :=
  match ds with
  | [] => 0
  | d :: ds' => d * 10 ^ Z.of_nat (length ds') + decimal ds'
  end.

Definition digits (ds : list Z) : Prop := Forall (λ d, 0 ≤ d ≤ 9) ds.
Definition written (ds : list Z) : str := map (λ d, 48 + d) ds.

Lemma decimal_nonneg ds : digits ds → 0 ≤ decimal ds.
Proof. induction 1 as [|d ds Hd _ IH]; cbn [decimal]; [lia|]. assert (0 ≤ 10 ^ Z.of_nat (length ds)) by (apply Z.pow_nonneg; lia). nia. Qed.

Lemma readdigits_spec ds rest a : digits ds → (∀ c r, rest = c :: r → isdigit c = false) →
  readdigits a (written ds ++ rest) = a * 10 ^ Z.of_nat (length ds) + decimal ds.
Proof.
  intros Hd Hr. revert a. induction Hd as [|d ds Hd _ IH]; intros a.
  - cbn. destruct rest as [|c r]; cbn; [lia|]. rewrite (Hr c r eq_refl). lia.
  - cbn [written map app readdigits length decimal].
    assert (isdigit (48 + d) = true) as -> by (unfold isdigit; apply andb_true_iff; split; apply Z.leb_le; lia).
    fold (written ds). rewrite IH. rewrite Nat2Z.inj_succ, Z.pow_succ_r by lia. ring_simplify. lia.
Qed.

(** C123: what a written number means as the value of a limit: any number up to the largest unsigned long is read as
    itself, whatever follows its digits, larger ones as that maximum. *)
Theorem C123_number ds rest : ds ≠ [] → digits ds → (∀ c r, rest = c :: r → ¬ (48 ≤ c ≤ 57)) →
  strtoul (written ds ++ rest) = Z.min (decimal ds) (2 ^ 64 - 1).
Proof.
  intros Hne Hd Hr. unfold strtoul. change (2 ^ 64 - 1) with ULMAX.
  assert (Hs : dropspace (written ds ++ rest) = written ds ++ rest).
  { destruct Hd as [|d ds Hd Hds]; [done|]. cbn [written map app dropspace].
    assert (isspace (48 + d) = false) as ->; [|done]. unfold isspace. apply orb_false_iff; split; [apply andb_false_iff; right; apply Z.leb_gt; lia|apply Z.eqb_neq; lia]. }
  rewrite Hs.
  assert (Hrd : readdigits 0 (written ds ++ rest) = decimal ds).
  { rewrite readdigits_spec; [lia|done|]. intros c r E. unfold isdigit. specialize (Hr c r E).
    apply andb_false_iff. destruct (Z.leb_spec 48 c); [right; apply Z.leb_gt; lia|by left]. }
  assert (Hsign : match written ds ++ rest with 45 :: s' => (true, s') | 43 :: s' => (false, s') | _ => (false, written ds ++ rest) end
    = (false, written ds ++ rest)).
  { destruct Hd as [|d ds Hd Hds]; [done|]. cbn [written map app].
    assert (d = 0 ∨ d = 1 ∨ d = 2 ∨ d = 3 ∨ d = 4 ∨ d = 5 ∨ d = 6 ∨ d = 7 ∨ d = 8 ∨ d = 9) as Hc by lia.
    repeat (destruct Hc as [->|Hc]; [reflexivity|]). subst. reflexivity. }
  rewrite Hsign, Hrd. destruct (Z.ltb_spec ULMAX (decimal ds)); lia.
Qed.

(** C123: text that is no number is taken as the limit zero, that is as no limit, and a negative number as a huge one. *)
Example C123_number_ex : strtoul [49; 50; 120] = 12 ∧ strtoul [120] = 0 ∧ strtoul [32; 45; 49] = 2 ^ 64 - 1.
Proof. vm_compute. done. Qed.

(** ** Limits from the command line *)

Inductive flag := Expd | Gend | Mem | Cputime | Walltime.
Global Instance flag_eq : EqDecision flag.
Proof. solve_decision. Defined.

(** "-expd", "-gend", "-mem", "-cputime" and "-walltime" *)
Definition spelled (f : flag) : str :=
  match f with
  | Expd => [45; 101; 120; 112; 100]
  | Gend => [45; 103; 101; 110; 100]
  | Mem => [45; 109; 101; 109]
  | Cputime => [45; 99; 112; 117; 116; 105; 109; 101]
  | Walltime => [45; 119; 97; 108; 108; 116; 105; 109; 101]
  end.

(** A command line is a sequence of limits with their values and of other words. *)
Inductive arg := Opt (f : flag) (v : str) | Word (w : str).

Definition words (a : arg) : list str := match a with Opt f v => [spelled f; v] | Word w => [w] end.
Definition line (l : list arg) : list str := mjoin (words <$> l).

(** A word is not the name of a limit, unless it is the last word of the line. *)
Fixpoint plain (l : list arg) : Prop :=
  match l with
  | [] => True
  | Opt _ _ :: l' => plain l'
  | Word w :: l' => (l' = [] ∨ ∀ f, w ≠ spelled f) ∧ plain l'
  end.

(** The values that the line gives to the limit [f], in order. *)
Fixpoint values (f : flag) (l : list arg) : list str :=
  match l with
  | [] => []
  | Opt f' v :: l' => if decide (f' = f) then v :: values f l' else values f l'
  | Word _ :: l' => values f l'
  end.

(** The last of them, read as a number by [r]; zero, no limit, if there is none. *)
Definition chosen (r : str → Z) (f : flag) (l : list arg) : Z := from_option r 0 (list.last (values f l)).

(** Each command line is of this form. *)
Theorem C123_lines argv : ∃ l, plain l ∧ argv = line l.
Proof.
  assert (∀ n argv, (length argv ≤ n)%nat → ∃ l, plain l ∧ argv = line l) as H; [|by eapply (H (length argv))].
  clear argv. induction n as [|n IH]; intros argv Hl.
  { destruct argv; [|cbn in Hl; lia]. by exists []. }
  destruct argv as [|w rest]; [by exists []|].
  assert ((∃ f, w = spelled f) ∨ ∀ f, w ≠ spelled f) as [[f ->]|Hw].
  { destruct (decide (w = spelled Expd)); [by left; eexists|]. destruct (decide (w = spelled Gend)); [by left; eexists|].
    destruct (decide (w = spelled Mem)); [by left; eexists|]. destruct (decide (w = spelled Cputime)); [by left; eexists|].
    destruct (decide (w = spelled Walltime)); [by left; eexists|]. right. by intros []. }
  - destruct rest as [|v rest].
    + exists [Word (spelled f)]. split; [|done]. split; [by left|done].
    + destruct (IH rest) as (l & Hp & ->); [cbn in Hl; lia|]. by exists (Opt f v :: l).
  - destruct (IH rest) as (l & Hp & ->); [cbn in Hl; lia|]. exists (Word w :: l). split; [|done]. split; [by right|done].
Qed.

Section limits.
Context (strtod : str → Q * str).

(** The memory limit [v] is a number with nothing, G, M or K after it (anything may follow the letter), and is
    taken as a number of bytes. *)
Definition bytes (v : str) (n : Z) : Prop :=
  ∃ k : Z, n = Qfloor ((strtod v).1 * inject_Z k)%Q ∧ 0 ≤ n < 2 ^ 64 ∧
    ((strtod v).2 = [] ∧ k = 1 ∨ ∃ c r, (strtod v).2 = c :: r ∧ (c = 71 ∧ k = 10 ^ 9 ∨ c = 77 ∧ k = 10 ^ 6 ∨ c = 75 ∧ k = 10 ^ 3)).

Lemma qfloor_eq a b : (a == b)%Q → Qfloor a = Qfloor b.
Proof. intros E. by rewrite E. Qed.

Lemma memlimit_bytes v n : memlimit strtod v = Some n ↔ bytes v n.
Proof.
  unfold memlimit, bytes. destruct (strtod v) as [m rest] eqn:E; cbn [fst snd].
  assert (HU : ULMAX = 2 ^ 64 - 1) by done.
  assert (Hbound : ∀ q : Q, (if decide (0 ≤ Qfloor q ≤ ULMAX) then Some (Qfloor q) else None) = Some n ↔ n = Qfloor q ∧ 0 ≤ n < 2 ^ 64).
  { intros q. case_decide as Hd; split.
    - intros [= <-]. split; [done|lia].
    - by intros [-> _].
    - done.
    - intros [-> H]. lia. }
  split.
  - intros H.
    destruct rest as [|c r].
    { cbn [mbind option_bind] in H. apply Hbound in H as [-> Hn]. exists 1. split; [apply qfloor_eq; unfold inject_Z; ring|]. split; [done|]. by left. }
    destruct (decide (c = 71)) as [->|H71]; [cbn [mbind option_bind] in H; apply Hbound in H as [-> Hn]; exists (10 ^ 9); split; [done|]; split; [done|]; right; eexists _, _; by split; [|left]|].
    destruct (decide (c = 77)) as [->|H77]; [cbn [mbind option_bind] in H; apply Hbound in H as [-> Hn]; exists (10 ^ 6); split; [done|]; split; [done|]; right; eexists _, _; by split; [|right; left]|].
    destruct (decide (c = 75)) as [->|H75]; [cbn [mbind option_bind] in H; apply Hbound in H as [-> Hn]; exists (10 ^ 3); split; [done|]; split; [done|]; right; eexists _, _; by split; [|right; right]|].
    exfalso. revert H71 H77 H75 H. clear. intros H71 H77 H75.
    destruct c as [|c|c]; try discriminate.
    do 7 (destruct c as [c|c|]; try discriminate; try congruence).
  - intros (k & Hn & Hb & [[-> ->]|(c & r & -> & [[-> ->]|[[-> ->]|[-> ->]]])]); cbn [mbind option_bind]; apply Hbound; (split; [|done]); rewrite Hn; apply qfloor_eq; unfold inject_Z; try ring; reflexivity.
Qed.

Lemma spelled_inj f g : spelled f = spelled g → f = g.
Proof. by destruct f, g. Qed.

Lemma parselimit_word w argv l : (∀ f, w ≠ spelled f) → parselimit strtod (w :: argv) l = parselimit strtod argv l.
Proof.
  intros H. destruct argv as [|v rest]; [done|]. cbn [parselimit].
  rewrite !decide_False; [done|apply (H Walltime)|apply (H Cputime)|apply (H Mem)|apply (H Gend)|apply (H Expd)].
Qed.

Lemma last_cons_values {A} (r : A → Z) d v vs : from_option r d (list.last (v :: vs)) = from_option r (r v) (list.last vs).
Proof. rewrite last_cons. by destruct (list.last vs). Qed.

Lemma parselimit_line l L : plain l →
  (∀ M, parselimit strtod (line l) L = Some M →
    Forall (λ v, ∃ n, bytes v n) (values Mem l) ∧
    expd M = from_option strtoul (expd L) (list.last (values Expd l)) ∧
    gend M = from_option strtoul (gend L) (list.last (values Gend l)) ∧
    cputime M = from_option strtoul (cputime L) (list.last (values Cputime l)) ∧
    walltime M = from_option strtoul (walltime L) (list.last (values Walltime l)) ∧
    match list.last (values Mem l) with Some v => bytes v (mem M) | None => mem M = mem L end) ∧
  (parselimit strtod (line l) L = None → ¬ Forall (λ v, ∃ n, bytes v n) (values Mem l)).
Proof.
  revert L. induction l as [|a l IH]; intros L Hp.
  { split; [|done]. cbn. intros M [= <-]. by repeat split. }
  destruct a as [f v|w].
  - change (line (Opt f v :: l)) with (spelled f :: v :: line l).
    destruct f; cbn [parselimit values plain] in *.
    + rewrite decide_True by done. destruct (IH (Limit (strtoul v) (gend L) (mem L) (cputime L) (walltime L)) Hp) as [H1 H2].
      repeat first [rewrite decide_True by done|rewrite decide_False by done]. split; [|exact H2]. intros M HM. rewrite last_cons_values. exact (H1 M HM).
    + rewrite decide_False by done. rewrite decide_True by done. destruct (IH (Limit (expd L) (strtoul v) (mem L) (cputime L) (walltime L)) Hp) as [H1 H2].
      repeat first [rewrite decide_True by done|rewrite decide_False by done]. split; [|exact H2]. intros M HM. rewrite last_cons_values. exact (H1 M HM).
    + repeat first [rewrite decide_True by done|rewrite decide_False by done].
      destruct (memlimit strtod v) as [m|] eqn:Em; cbn [mbind option_bind].
      * apply memlimit_bytes in Em. destruct (IH (Limit (expd L) (gend L) m (cputime L) (walltime L)) Hp) as [H1 H2]. split.
        -- intros M HM. destruct (H1 M HM) as (F & A & B & C & E & G). split; [constructor; [by eexists|done]|]. repeat split; try done.
           rewrite last_cons. destruct (list.last (values Mem l)); [done|]. by rewrite G.
        -- intros HN HF. inversion HF; subst. by apply H2.
      * split; [done|]. intros _ HF. inversion HF as [|? ? [n Hn] _]; subst. apply memlimit_bytes in Hn. congruence.
    + repeat first [rewrite decide_True by done|rewrite decide_False by done]. destruct (IH (Limit (expd L) (gend L) (mem L) (strtoul v) (walltime L)) Hp) as [H1 H2].
      split; [|exact H2]. intros M HM. rewrite last_cons_values. exact (H1 M HM).
    + repeat first [rewrite decide_True by done|rewrite decide_False by done]. destruct (IH (Limit (expd L) (gend L) (mem L) (cputime L) (strtoul v)) Hp) as [H1 H2].
      split; [|exact H2]. intros M HM. rewrite last_cons_values. exact (H1 M HM).
  - change (line (Word w :: l)) with (w :: line l). cbn [plain values] in *. destruct Hp as [[->|Hw] Hp].
    + exact (IH L Hp).
    + rewrite parselimit_word by done. exact (IH L Hp).
Qed.

(** C123: the limits of a search are the last values given on the command line: the value of a limit is never mistaken
    for the name of another one, other words do not matter, and the program ends with an error exactly if
    some memory limit is not a size. *)
Theorem C123_limits l M : plain l → mklimit strtod (line l) = Some M →
  expd M = chosen strtoul Expd l ∧ gend M = chosen strtoul Gend l ∧
  cputime M = chosen strtoul Cputime l ∧ walltime M = chosen strtoul Walltime l ∧
  match list.last (values Mem l) with Some v => bytes v (mem M) | None => mem M = 0 end.
Proof. intros Hp HM. destruct (parselimit_line l nolimit Hp) as [H _]. apply (H M HM). Qed.

Theorem C123_accepted l : plain l →
  (is_Some (mklimit strtod (line l)) ↔ ∀ v, v ∈ values Mem l → ∃ n, bytes v n).
Proof.
  intros Hp. destruct (parselimit_line l nolimit Hp) as [H1 H2]. rewrite <- Forall_forall. split.
  - intros [M HM]. apply (H1 M HM).
  - intros HF. unfold mklimit. destruct (parselimit strtod (line l) nolimit) as [M|] eqn:E; [by eexists|]. by destruct (H2 eq_refl).
Qed.
End limits.

(** "-expd 10 -gend -expd -expd 20": the second -expd is the value of -gend. *)
Definition argline : list arg := [Opt Expd [49; 48]; Opt Gend (spelled Expd); Opt Expd [50; 48]; Word (spelled Mem)].
Example C123_limits_ex : plain argline ∧ mklimit (λ _, (0%Q, [])) (line argline) = Some (Limit 20 0 0 0 0).
Proof. split; [cbn; tauto|]. vm_compute. done. Qed.

(** ** Lookahead limits *)

(** The word [v] follows the first [f] on the line that is followed by a word. *)
Definition given (f : str) (argv : list str) (v : str) : Prop :=
  ∃ pre post, argv = pre ++ f :: v :: post ∧ f ∉ pre.

Definition s_lookahead : str := [45; 108; 111; 111; 107; 97; 104; 101; 97; 100].
Definition s_dynlss : str := [45; 100; 121; 110; 108; 115; 115].

Lemma given_cons f w argv v : w ≠ f → given f argv v ↔ given f (w :: argv) v.
Proof.
  intros Hw. split.
  - intros (pre & post & -> & Hn). exists (w :: pre), post. split; [done|]. set_solver.
  - intros (pre & post & E & Hn). destruct pre as [|w' pre]; cbn in E; [congruence|]. injection E as -> ->. exists pre, post. split; [done|]. set_solver.
Qed.

Lemma given_fun f argv v v' : given f argv v → given f argv v' → v = v'.
Proof.
  induction argv as [|w argv IH]; [intros ([|] & ? & ? & ?); discriminate|].
  destruct (decide (w = f)) as [->|Hw].
  - intros (pre & post & E & Hn) (pre' & post' & E' & Hn').
    destruct pre as [|x pre]; [|cbn in E; injection E as -> ->; set_solver].
    destruct pre' as [|x pre']; [|cbn in E'; injection E' as -> ->; set_solver].
    cbn in *. congruence.
  - intros H H'. apply given_cons in H, H'; try done. eauto.
Qed.

Lemma findlook_spec argv : (∃ v, given s_lookahead argv v ∧ findlook argv = strtoul v mod 2 ^ 32) ∨
  (¬ ∃ v, given s_lookahead argv v) ∧ findlook argv = 0.
Proof.
  induction argv as [|w argv IH].
  { right. split; [|done]. intros (v & [|] & ? & ? & ?); discriminate. }
  destruct argv as [|v argv].
  { right. split; [|done]. intros (v & [|? [|]] & ? & ? & ?); discriminate. }
  cbn [findlook]. case_decide as Hd.
  - left. exists v. split; [|done]. exists [], argv. subst. split; [done|]. set_solver.
  - destruct IH as [(v' & Hg & E)|[Hn E]].
    + left. exists v'. split; [|done]. by apply given_cons.
    + right. split; [|done]. intros [v' Hg]. apply Hn. exists v'. by apply given_cons in Hg.
Qed.

Lemma finddyn_spec argv : match finddyn argv with Some v => given s_dynlss argv v | None => ¬ ∃ v, given s_dynlss argv v end.
Proof.
  induction argv as [|w argv IH].
  { intros (v & [|] & ? & ? & ?); discriminate. }
  destruct argv as [|v argv].
  { intros (v & [|? [|]] & ? & ? & ?); discriminate. }
  change (finddyn (w :: v :: argv)) with (if decide (w = f_dynlss) then Some v else finddyn (v :: argv)). case_decide as Hd.
  - exists [], argv. subst. split; [done|]. set_solver.
  - destruct (finddyn (v :: argv)).
    + by apply given_cons.
    + intros [v' Hg]. apply IH. exists v'. by apply given_cons in Hg.
Qed.

Definition size_of (l : looklimit) : Z := match l with LExp n => n | LMax _ _ _ n _ => n end.

(** C124: a lookahead limit is made only from a word after the first -lookahead that is a positive number (taken
    modulo two to the thirty-second), and it is a fixed number of expansions exactly if no -dynlss with a word after it is given. *)
Theorem C124_lookahead strtod argv l : fromargs strtod argv = Some l →
  1 ≤ size_of l < 2 ^ 32 ∧
  (∃ v, given s_lookahead argv v ∧ size_of l = strtoul v mod 2 ^ 32) ∧
  match l with
  | LExp _ => ¬ ∃ v, given s_dynlss argv v
  | LMax alg root level _ gs => given s_dynlss argv root ∧ argv !! 1%nat = Some alg ∧ level ≠ [] ∧ (0 < gs)%Q
  end.
Proof.
  unfold fromargs. destruct (Z.ltb_spec (findlook argv) 1) as [|Hn]; [done|].
  pose proof (findlook_spec argv) as [(v & Hg & E)|[_ E]]; [|lia].
  assert (Hb : 1 ≤ findlook argv < 2 ^ 32) by (split; [lia|]; rewrite E; apply Z.mod_pos_bound; lia).
  pose proof (finddyn_spec argv) as Hdyn. destruct (finddyn argv) as [root|].
  - destruct (findlvl strtod argv [] (-1)%Q) as [[level gs]|]; cbn [mbind option_bind]; [|done].
    destruct (Qle_bool gs 0) eqn:Eg; [done|]. case_decide as Hl; [done|].
    destruct (argv !! 1%nat) as [alg|] eqn:Ea; cbn [mbind option_bind]; [|done].
    intros [= <-]. cbn [size_of]. split; [done|]. split; [by exists v|]. split; [done|]. split; [done|]. split; [done|].
    apply Qnot_le_lt. intros Hle. apply Qle_bool_iff in Hle. congruence.
  - intros [= <-]. cbn [size_of]. split; [done|]. split; [by exists v|done].
Qed.

Theorem C124_accepted strtod argv v : given s_lookahead argv v → ¬ (∃ r, given s_dynlss argv r) →
  (fromargs strtod argv = None ↔ strtoul v mod 2 ^ 32 = 0).
Proof.
  intros Hg Hd. unfold fromargs. pose proof (findlook_spec argv) as [(v' & Hg' & E)|[Hno _]]; [|exfalso; eauto].
  rewrite (given_fun _ _ _ _ Hg Hg'). rewrite <- E.
  assert (0 ≤ findlook argv) by (rewrite E; apply Z.mod_pos_bound; lia).
  pose proof (finddyn_spec argv) as Hdyn. destruct (finddyn argv); [exfalso; eauto|].
  destruct (Z.ltb_spec (findlook argv) 1); split; intros; try done; lia.
Qed.

(** C124: after its start a limit of [n] expansions lets exactly [n] of them happen: the call number [i], counted from
    zero, says stop if and only if n <= i (the counter wraps after two to the thirty-second calls). *)
Theorem C124_expansions e k i : estops k (estart e) !! i = if decide (i < k)%nat then Some (elim e <=? Z.of_nat i mod 2 ^ 32) else None.
Proof.
  assert (∀ k i c, 0 ≤ c < UINT → estops k (Exp c (elim e)) !! i = if decide (i < k)%nat then Some (elim e <=? (c + Z.of_nat i) mod 2 ^ 32) else None) as H.
  { clear k i. induction k as [|k IH]; intros i c Hc.
    - cbn. rewrite decide_False by lia. done.
    - cbn [estops estop elim en]. destruct i as [|i].
      + cbn. rewrite Z.add_0_r, Z.mod_small by (unfold UINT in Hc; lia). done.
      + change (estops k (Exp ((c + 1) mod UINT) (elim e)) !! i = if decide (S i < S k)%nat then Some (elim e <=? (c + Z.of_nat (S i)) mod 2 ^ 32) else None).
        rewrite IH by (apply Z.mod_pos_bound; done).
        destruct (decide (i < k)%nat); [rewrite decide_True by lia|rewrite decide_False by lia; done].
        do 2 f_equal. change UINT with (2 ^ 32). rewrite Zplus_mod_idemp_l. f_equal. lia. }
  unfold estart. rewrite H; [done|]. unfold UINT. lia.
Qed.

Example C124_ex : fromargs (λ _, (0%Q, [])) [[97]; [98]; s_lookahead; [51]; s_dynlss] = Some (LExp 3) ∧
  estops 5 (estart (Exp 7 3)) = [false; false; false; true; true] ∧
  fromargs (λ _, (0%Q, [])) [s_lookahead; [52; 50; 57; 52; 57; 54; 55; 50; 57; 54]] = None.
Proof. vm_compute. done. Qed.

(** ** The table of lookahead sizes *)

(** The time [t] is the largest of the times that the training files [fs] have for the size [s]. *)
Definition slowest (fs : list (Z * Q)) (s : Z) (t : Q) : Prop :=
  (s, t) ∈ fs ∧ (0 <= t)%Q ∧ ∀ t', (s, t') ∈ fs → (t' <= t)%Q.

Definition tabled (tbl : list lookup) (fs : list (Z * Q)) : Prop :=
  NoDup (size <$> tbl) ∧
  (∀ e, e ∈ tbl → slowest fs (size e) (maxtime e)) ∧
  (∀ s t, (s, t) ∈ fs → (0 <= t)%Q → s ∈ (size <$> tbl)).

Lemma qle_true a b : Qle_bool a b = true ↔ (a <= b)%Q.
Proof. apply Qle_bool_iff. Qed.

Lemma qle_false a b : Qle_bool a b = false ↔ (b < a)%Q.
Proof.
  destruct (Qle_bool a b) eqn:E; split; try done.
  - intros H. apply Qle_bool_iff in E. by apply Qlt_not_le in H.
  - intros _. apply Qnot_le_lt. intros H. apply Qle_bool_iff in H. congruence.
Qed.

Lemma qmax_cases a b : (qmax a b = a ∧ (b <= a)%Q) ∨ (qmax a b = b ∧ (a <= b)%Q).
Proof. unfold qmax. destruct (Qle_bool b a) eqn:E; [left; split; [done|by apply qle_true]|right; split; [done|apply Qlt_le_weak; by apply qle_false]]. Qed.

Lemma addrun_sizes tbl s t : (size <$> addrun tbl s t) = (size <$> tbl) ++ (if decide (s ∈ (size <$> tbl)) then [] else [s]).
Proof.
  induction tbl as [|e tbl IH]; cbn [addrun].
  - cbn. rewrite decide_False by set_solver. done.
  - destruct (decide (size e = s)) as [Hd|Hd].
    + cbn. rewrite decide_True by (subst; set_solver). rewrite app_nil_r, Hd. done.
    + rewrite !fmap_cons, IH. cbn [app]. f_equal. f_equal. destruct (decide (s ∈ (size <$> tbl))) as [Hi|Hi]; [rewrite decide_True by set_solver|rewrite decide_False by set_solver]; done.
Qed.

Lemma addrun_elem tbl s t e : NoDup (size <$> tbl) → e ∈ addrun tbl s t →
  (e ∈ tbl ∧ size e ≠ s) ∨ (e = Lookup s t ∧ s ∉ (size <$> tbl)) ∨ (∃ e', e' ∈ tbl ∧ size e' = s ∧ e = Lookup s (qmax (maxtime e') t)).
Proof.
  induction tbl as [|x tbl IH]; cbn [addrun]; intros Hnd He.
  - apply elem_of_list_singleton in He. right; left. split; [done|set_solver].
  - rewrite fmap_cons in Hnd. apply NoDup_cons in Hnd as [Hx Hnd]. case_decide as Hd.
    + apply elem_of_cons in He as [->|He].
      * right; right. exists x. split; [set_solver|done].
      * left. split; [set_solver|]. intros E. apply Hx. rewrite Hd, <- E. by apply elem_of_list_fmap_1.
    + apply elem_of_cons in He as [->|He].
      * left. split; [set_solver|done].
      * destruct (IH Hnd He) as [[H1 H2]|[[H1 H2]|(e' & H1 & H2 & H3)]].
        -- left. split; [set_solver|done].
        -- right; left. split; [done|]. set_solver.
        -- right; right. exists e'. split; [set_solver|done].
Qed.

Lemma addrun_tabled tbl fs s t : (0 <= t)%Q → tabled tbl fs → tabled (addrun tbl s t) (fs ++ [(s, t)]).
Proof.
  intros Ht (Hnd & He & Hs). split; [|split].
  - rewrite addrun_sizes. case_decide as Hd; [by rewrite app_nil_r|]. apply NoDup_app. split; [done|]. split; [set_solver|]. apply NoDup_singleton.
  - intros e Hin. apply addrun_elem in Hin; [|done]. destruct Hin as [[H1 H2]|[[-> H2]|(e' & H1 & H2 & ->)]]; cbn [size maxtime].
    + destruct (He e H1) as (A & B & C). split; [set_solver|]. split; [done|]. intros t' Ht'.
      apply elem_of_app in Ht' as [Ht'|Ht']; [eauto|]. apply elem_of_list_singleton in Ht'. congruence.
    + split; [set_solver|]. split; [done|]. intros t' Ht'. apply elem_of_app in Ht' as [Ht'|Ht'].
      * destruct (Qlt_le_dec t' 0) as [Hneg|Hpos]; [lra|]. exfalso. eauto.
      * apply elem_of_list_singleton in Ht' as [= ->]. lra.
    + destruct (He e' H1) as (A & B & C). rewrite H2 in *. destruct (qmax_cases (maxtime e') t) as [[-> Hq]|[-> Hq]].
      * split; [set_solver|]. split; [done|]. intros t' Ht'. apply elem_of_app in Ht' as [Ht'|Ht']; [eauto|]. apply elem_of_list_singleton in Ht' as [= ->]. done.
      * split; [set_solver|]. split; [done|]. intros t' Ht'. apply elem_of_app in Ht' as [Ht'|Ht']; [|apply elem_of_list_singleton in Ht' as [= ->]; lra].
        specialize (C t' Ht'). lra.
  - intros s' t' Hin Hpos. rewrite addrun_sizes. apply elem_of_app in Hin as [Hin|Hin]; [set_solver|].
    apply elem_of_list_singleton in Hin as [= -> ->]. case_decide; set_solver.
Qed.

Lemma addruns_tabled fs tbl fs0 : tabled tbl fs0 → tabled (addruns tbl fs) (fs0 ++ fs).
Proof.
  revert tbl fs0. induction fs as [|[s t] fs IH]; intros tbl fs0 HT; cbn [addruns]; [by rewrite app_nil_r|].
  replace (fs0 ++ (s, t) :: fs) with ((fs0 ++ [(s, t)]) ++ fs) by by rewrite <- app_assoc.
  destruct (Qle_bool 0 t) eqn:E.
  - apply IH. apply addrun_tabled; [by apply qle_true|done].
  - apply IH. apply qle_false in E. destruct HT as (Hnd & He & Hs). split; [done|]. split.
    + intros e Hin. destruct (He e Hin) as (A & B & C). split; [set_solver|]. split; [done|]. intros t' Ht'.
      apply elem_of_app in Ht' as [Ht'|Ht']; [eauto|]. apply elem_of_list_singleton in Ht' as [= _ ->]. lra.
    + intros s' t' Hin Hpos. apply elem_of_app in Hin as [Hin|Hin]; [eauto|]. apply elem_of_list_singleton in Hin as [= -> ->]. lra.
Qed.

(** C125: the table made from the training files has one entry for each size that some file with a time has, in
    strictly increasing order of size, with the largest time of that size; the order of the files does not
    matter.  There is no table (the program ends) exactly if no file has a time. *)
Theorem C125_table fs tbl : mktable fs = Some tbl →
  StronglySorted (λ a b, size a < size b) tbl ∧
  (∀ e, e ∈ tbl → slowest fs (size e) (maxtime e)) ∧
  (∀ s t, (s, t) ∈ fs → (0 <= t)%Q → ∃ e, e ∈ tbl ∧ size e = s).
Proof.
  unfold mktable. assert (HT : tabled (addruns [] fs) ([] ++ fs)).
  { apply addruns_tabled. split; [constructor|]. split; [set_solver|set_solver]. }
  cbn [app] in HT. intros E.
  assert (Et : tbl = merge_sort lessize (addruns [] fs)) by (destruct (addruns [] fs); [done|congruence]).
  clear E. destruct HT as (Hnd & He & Hs).
  assert (HP : tbl ≡ₚ addruns [] fs) by (subst; apply merge_sort_Permutation).
  split; [|split].
  - assert (HS : StronglySorted lessize tbl).
    { subst. apply Sorted_StronglySorted; [intros a b c; unfold lessize; lia|]. apply Sorted_merge_sort. intros a b. unfold lessize. lia. }
    assert (Hnd' : NoDup (size <$> tbl)) by by rewrite HP.
    clear - HS Hnd'. induction HS as [|a l HS IH HF]; [constructor|]. rewrite fmap_cons in Hnd'. apply NoDup_cons in Hnd' as [Ha Hnd].
    constructor; [by apply IH|]. rewrite Forall_forall in HF |- *. intros b Hb. specialize (HF b Hb). unfold lessize in HF.
    assert (size a ≠ size b); [|lia]. intros E. apply Ha. rewrite E. by apply elem_of_list_fmap_1.
  - intros e Hin. apply He. by rewrite <- HP.
  - intros s t Hin Hpos. specialize (Hs s t Hin Hpos). apply elem_of_list_fmap in Hs as (e & -> & Hine). exists e. split; [|done]. by rewrite HP.
Qed.

Theorem C125_no_table fs : mktable fs = None ↔ ∀ s t, (s, t) ∈ fs → (t < 0)%Q.
Proof.
  assert (HT : tabled (addruns [] fs) ([] ++ fs)).
  { apply addruns_tabled. split; [constructor|]. split; [set_solver|set_solver]. }
  destruct HT as (_ & He & Hs). cbn [app] in *. unfold mktable. destruct (addruns [] fs) as [|e tbl] eqn:E.
  - split; [|done]. intros _ s t Hin. destruct (Qlt_le_dec t 0) as [|Hp]; [done|]. specialize (Hs s t Hin Hp). set_solver.
  - split; [done|]. intros H. destruct (He e) as (A & B & _); [set_solver|]. specialize (H _ _ A). lra.
Qed.

(** C125: the size chosen for a time [t].  It is meant to be the largest size that can be searched in the time.  What is
    chosen is the smallest size that takes the time [t] or longer: every smaller size of the table would have been
    fast enough, and the chosen one is only if its time is [t] exactly.  If no size takes that long it is the
    largest size. *)
Theorem C125_maxlss tbl t s : StronglySorted (λ a b, size a < size b) tbl → maxlss tbl t = Some s →
  ∃ e, e ∈ tbl ∧ size e = s ∧
    (∀ e', e' ∈ tbl → size e' < s → (maxtime e' < t)%Q) ∧
    ((t <= maxtime e)%Q ∨ ∀ e', e' ∈ tbl → (maxtime e' < t)%Q ∧ size e' ≤ s).
Proof.
  intros HS. revert s. induction HS as [|e tbl HS IH HF]; intros s; [done|]. cbn [maxlss].
  rewrite Forall_forall in HF.
  destruct (Qle_bool t (maxtime e)) eqn:E.
  - apply qle_true in E. intros [= <-]. exists e. split; [set_solver|]. split; [done|]. split; [|by left].
    intros e' Hin Hlt. apply elem_of_cons in Hin as [->|Hin]; [lia|]. specialize (HF e' Hin). cbn in HF. lia.
  - apply qle_false in E. destruct tbl as [|x tbl'] eqn:Et.
    + intros [= <-]. exists e. split; [set_solver|]. split; [done|]. split.
      * intros e' Hin _. apply elem_of_list_singleton in Hin as ->. done.
      * right. intros e' Hin. apply elem_of_list_singleton in Hin as ->. split; [done|lia].
    + intros H. destruct (IH s H) as (e0 & H1 & H2 & H3 & H4). exists e0. split; [set_solver|]. split; [done|].
      assert (Hes : size e < s) by (rewrite <- H2; apply (HF e0 H1)). split.
      * intros e' Hin Hlt. apply elem_of_cons in Hin as [->|Hin]; [done|]. by apply H3.
      * destruct H4 as [H4|H4]; [by left|]. right. intros e' Hin. apply elem_of_cons in Hin as [->|Hin]; [split; [done|lia]|]. by apply H4.
Qed.

(** C125: so the chosen size is not the largest one that can be searched in the time: *)
Theorem C125_affordable_refuted : ∃ fs tbl t s, mktable fs = Some tbl ∧ maxlss tbl t = Some s ∧
  (∃ e, e ∈ tbl ∧ size e = s ∧ (t < maxtime e)%Q) ∧ ∃ e, e ∈ tbl ∧ size e < s ∧ (maxtime e < t)%Q.
Proof.
  exists [(100, 9%Q); (10, 1%Q); (10, 2%Q); (5, (-1)%Q)], [Lookup 10 2; Lookup 100 9], 3%Q, 100.
  split; [vm_compute; done|]. split; [vm_compute; done|]. split.
  - exists (Lookup 100 9). split; [set_solver|]. split; [done|]. cbn. lra.
  - exists (Lookup 10 2). split; [set_solver|]. split; [done|]. cbn. lra.
Qed.

(** Starts of a lookahead, the processor time and the cost g of the last move for each. *)
Fixpoint mstarts (m : maxlimit) (gs : list (Q * Q)) : option maxlimit :=
  match gs with
  | [] => Some m
  | (now, g) :: gs' => m' ← mstart now g m; mstarts m' gs'
  end.

(** The time that the moves of cost g take, less one of them unless that is too short. *)
Fixpoint allowed (scale : Q) (gs : list (Q * Q)) : Q :=
  match gs with
  | [] => 0
  | (_, g) :: gs' => ((if Qlt_le_dec 1 g then g - 1 else g) * scale + allowed scale gs')%Q
  end.

Definition fresh (gs : Q) (l0 : Z) (tbl : list lookup) : maxlimit := Max gs 0 l0 l0 0 tbl.

Lemma mstart_spec now g m m' : (0 < g)%Q → mstart now g m = Some m' →
  gscale m' = gscale m ∧ table m' = table m ∧ lim0 m' = lim0 m ∧
  (deadline m' == (if Qeq_bool (deadline m) 0 then now else deadline m) + (if Qlt_le_dec 1 g then g - 1 else g) * gscale m)%Q ∧
  maxlss (table m) (deadline m' - now)%Q = Some (mlim m') ∧
  missed m' = missed m + (if Qlt_le_dec (if Qeq_bool (deadline m) 0 then now else deadline m) now then 1 else 0).
Proof.
  intros Hg. unfold mstart. destruct (Qle_bool g 0) eqn:E; [apply qle_true in E; lra|].
  assert (Eg : (if Qle_bool g 1 then g else (g - 1)%Q) = (if Qlt_le_dec 1 g then (g - 1)%Q else g)).
  { destruct (Qle_bool g 1) eqn:E1; destruct (Qlt_le_dec 1 g); try done; [apply qle_true in E1; lra|apply qle_false in E1; lra]. }
  rewrite Eg. set (d0 := if Qeq_bool (deadline m) 0 then now else deadline m). set (g' := if Qlt_le_dec 1 g then (g - 1)%Q else g).
  destruct (maxlss (table m) (d0 + g' * gscale m - now)%Q) as [l|] eqn:El; cbn [mbind option_bind]; [|done].
  intros [= <-]. cbn [gscale table lim0 deadline mlim missed]. split; [done|]. split; [done|]. split; [done|]. split; [reflexivity|]. split; [done|].
  destruct (Qle_bool now d0) eqn:E2; destruct (Qlt_le_dec d0 now); try lia; [apply qle_true in E2; lra|apply qle_false in E2; lra].
Qed.

(** C125: the deadline of a lookahead is the time of the first move plus the time that all moves so far take: lateness at
    one move is not forgotten at the next. *)
Theorem C125_deadline scale l0 tbl now g gs m : (0 < scale)%Q → (0 < now)%Q → (0 < g)%Q → Forall (λ p, (0 < p.2)%Q) gs →
  mstarts (fresh scale l0 tbl) ((now, g) :: gs) = Some m →
  (deadline m == now + allowed scale ((now, g) :: gs))%Q.
Proof.
  intros Hsc Hnow Hg Hgs. cbn [mstarts].
  destruct (mstart now g (fresh scale l0 tbl)) as [m1|] eqn:E1; cbn [mbind option_bind]; [|done].
  destruct (mstart_spec _ _ _ _ Hg E1) as (A & _ & _ & B & _). cbn [fresh gscale deadline] in A, B. replace (Qeq_bool 0 0) with true in B by done. cbn [allowed].
  set (g' := if Qlt_le_dec 1 g then (g - 1)%Q else g) in *.
  assert (Hg' : (0 < g')%Q) by (unfold g'; destruct (Qlt_le_dec 1 g); lra).
  assert (Hpos : (0 < deadline m1)%Q) by (rewrite B; assert (0 < g' * scale)%Q by (by apply Qmult_lt_0_compat); lra).
  assert (∀ gs m1 m, Forall (λ p, (0 < p.2)%Q) gs → gscale m1 = scale → (0 < deadline m1)%Q → mstarts m1 gs = Some m → (deadline m == deadline m1 + allowed scale gs)%Q) as Hind.
  { clear - Hsc. induction gs as [|[now g] gs IH]; intros m1 m HF Hs Hp; cbn [mstarts allowed].
    - intros [= ->]. lra.
    - inversion HF as [|? ? Hg HF']; subst. cbn in Hg. destruct (mstart now g m1) as [m2|] eqn:E; cbn [mbind option_bind]; [|done].
      destruct (mstart_spec _ _ _ _ Hg E) as (A & _ & _ & B & _).
      assert (Qeq_bool (deadline m1) 0 = false) as Hq.
      { destruct (Qeq_bool (deadline m1) 0) eqn:Eq; [|done]. apply Qeq_bool_iff in Eq. lra. }
      rewrite Hq in B. set (g' := if Qlt_le_dec 1 g then (g - 1)%Q else g) in *.
      assert (Hg' : (0 < g')%Q) by (unfold g'; destruct (Qlt_le_dec 1 g); lra).
      assert (0 < g' * gscale m1)%Q by (by apply Qmult_lt_0_compat).
      intros Hm. rewrite (IH m2 m HF' A ltac:(lra) Hm). rewrite B. lra. }
  intros H. rewrite (Hind gs m1 m Hgs A Hpos H). rewrite B. lra.
Qed.

Example C125_ex : mktable [(100, 9%Q); (10, 1%Q); (10, 2%Q); (5, (-1)%Q)] = Some [Lookup 10 2; Lookup 100 9] ∧
  maxlss [Lookup 10 2; Lookup 100 9] 2 = Some 10 ∧
  (mlim <$> mstarts (fresh 1 5 [Lookup 10 2; Lookup 100 9]) [(1, 3); (2, 1 # 2)]%Q) = Some 10.
Proof. vm_compute. done. Qed.

(** ** Timers *)

(** The searches follow the protocol: a limit is started when it is not running, and finished when it is. [r] is the
    list of running limits. *)
Fixpoint protocol (r : list nat) (es : list event) : Prop :=
  match es with
  | [] => True
  | Start i :: es' => i ∉ r ∧ protocol (i :: r) es'
  | Finish i :: es' => i ∈ r ∧ protocol (filter (λ j, j ≠ i) r) es'
  | Ring _ :: es' => protocol r es'
  end.

(** A limit with a time. *)
Definition timedlimit (l : limit) : Prop := 0 < walltime l ∨ 0 < cputime l.
Definition sane (conf : nat → limit) : Prop := ∀ i, 0 ≤ walltime (conf i) ∧ 0 ≤ cputime (conf i).

Definition winv (conf : nat → limit) (r : list nat) (w : world) : Prop :=
  (∀ i, timed w = Some i → i ∈ r ∧ timedlimit (conf i)) ∧
  (∀ i, i ∈ r → timedlimit (conf i) → timed w = Some i) ∧
  (∀ t, armed w t = true → handled w t = true ∧ is_Some (timed w)) ∧
  (∀ i, timed w = Some i → (handled w Real = true → 0 < walltime (conf i)) ∧ (handled w Prof = true → 0 < cputime (conf i))) ∧
  (timed w = None → ∀ t, handled w t = false).

Lemma untimed conf i : sane conf → ((walltime (conf i) =? 0) && (cputime (conf i) =? 0)) = true ↔ ¬ timedlimit (conf i).
Proof.
  intros Hs. specialize (Hs i). unfold timedlimit. rewrite andb_true_iff, !Z.eqb_eq. lia.
Qed.

Lemma start_inv conf r i w : sane conf → winv conf r w → i ∉ r →
  match start conf i w with Ok w' => winv conf (i :: r) w' ∧ timeup w' = timeup w ∧ (¬ timedlimit (conf i) ∨ timed w' = Some i) | Fatal => True | _ => False end.
Proof.
  intros Hs (I1 & I2 & I3 & I4 & I5) Hi. unfold start. destruct ((walltime (conf i) =? 0) && (cputime (conf i) =? 0)) eqn:E.
  - apply untimed in E; [|done]. split; [|split; [done|by left]]. split; [|split; [|done]].
    + intros j Hj. destruct (I1 j Hj). split; [set_solver|done].
    + intros j Hj Ht. apply elem_of_cons in Hj as [->|Hj]; [done|]. by apply I2.
  - assert (Ht : timedlimit (conf i)).
    { destruct (decide (0 < walltime (conf i))); [by left|]. destruct (decide (0 < cputime (conf i))); [by right|]. exfalso.
      specialize (Hs i). apply andb_false_iff in E as [E|E]; apply Z.eqb_neq in E; lia. }
    destruct (timed w) as [j|] eqn:Ew.
    + rewrite Ew. rewrite decide_False; [done|]. intros [= ->]. destruct (I1 i eq_refl). done.
    + cbn [timed]. rewrite decide_True by done.
      assert (Hno : ∀ t, armed w t = false).
      { intros t. destruct (armed w t) eqn:Ea; [|done]. destruct (I3 t Ea) as [_ [? ?]]. congruence. }
      specialize (I5 eq_refl).
      destruct (Z.ltb_spec 0 (walltime (conf i))); destruct (Z.ltb_spec 0 (cputime (conf i))); cbn [settimer timed armed handled timeup]; (split; [|split; [done|by right]]); (split; [|split; [|split; [|split]]]); cbn [settimer timed armed handled timeup].
      all: try (intros j [= <-]; split; [apply elem_of_list_here|exact Ht]).
      all: try (intros j Hj Htj; apply elem_of_cons in Hj as [->|Hj]; [done|]; specialize (I2 j Hj Htj); congruence).
      all: try discriminate.
      all: try (intros [] Hb; unfold put in *; cbn in *; rewrite ?Hno in Hb; (split; [try done|by eexists])).
      all: try (intros j [= <-]; unfold put; cbn; rewrite ?I5; split; intros; done).
Qed.

Lemma finish_inv conf r i w : sane conf → winv conf r w → i ∈ r →
  match finish conf i w with Ok w' => winv conf (filter (λ j, j ≠ i) r) w' ∧ timeup w' = timeup w | _ => False end.
Proof.
  intros Hs (I1 & I2 & I3 & I4 & I5) Hi. unfold finish. destruct ((walltime (conf i) =? 0) && (cputime (conf i) =? 0)) eqn:E.
  - apply untimed in E; [|done]. split; [|done]. split; [|split; [|done]].
    + intros j Hj. destruct (I1 j Hj). split; [|done]. apply elem_of_list_filter. split; [|done]. intros ->. done.
    + intros j Hj Ht. apply elem_of_list_filter in Hj as [_ Hj]. by apply I2.
  - assert (Ht : timedlimit (conf i)).
    { destruct (decide (0 < walltime (conf i))); [by left|]. destruct (decide (0 < cputime (conf i))); [by right|]. exfalso.
      specialize (Hs i). apply andb_false_iff in E as [E|E]; apply Z.eqb_neq in E; lia. }
    specialize (I2 i Hi Ht) as Hti. destruct (I4 i Hti) as [Hr Hp].
    assert (Hnone : ∀ j, j ∈ filter (λ j, j ≠ i) r → ¬ timedlimit (conf j)).
    { intros j Hj Htj. apply elem_of_list_filter in Hj as [Hne Hj]. specialize (I2 j Hj Htj). congruence. }
    assert (HrF : walltime (conf i) ≤ 0 → handled w Real = false) by (intros; destruct (handled w Real) eqn:Eh; [specialize (Hr eq_refl); lia|done]).
    assert (HpF : cputime (conf i) ≤ 0 → handled w Prof = false) by (intros; destruct (handled w Prof) eqn:Eh; [specialize (Hp eq_refl); lia|done]).
    assert (HA : ∀ t, handled w t = false → armed w t = false) by (intros t Hh; destruct (armed w t) eqn:Ea; [destruct (I3 t Ea); congruence|done]).
    destruct (Z.ltb_spec 0 (walltime (conf i))); destruct (Z.ltb_spec 0 (cputime (conf i))); cbn [stoptimer timed armed handled timeup]; (split; [|done]); (split; [|split; [|split; [|split]]]); cbn [stoptimer timed armed handled timeup]; try done.
    all: try (intros j Hj Htj; by destruct (Hnone j Hj)).
    all: try (intros _ []; unfold put; cbn; auto; fail).
    all: try (intros [] Hb; unfold put in *; cbn in *; try discriminate; rewrite HA in Hb by auto; discriminate).
Qed.

Lemma ring_inv conf r t w : winv conf r w →
  match ring t w with
  | Ok w' => winv conf r w' ∧ timed w' = timed w ∧ (∀ j, timeup w' j = true → timeup w j = true ∨ timed w = Some j) ∧
      (∀ j, timeup w j = true → timeup w' j = true) ∧
      (armed w t = true → ∀ i, timed w = Some i → timeup w' i = true)
  | _ => False
  end.
Proof.
  intros (I1 & I2 & I3 & I4 & I5). unfold ring. destruct (armed w t) eqn:Ea.
  - destruct (I3 t Ea) as [Hh [i Hi]]. rewrite Hh, Hi. cbn [timed armed handled timeup].
    split; [|split; [done|split; [|split]]].
    + split; [|split; [|split; [|split]]]; cbn [timed armed handled timeup]; rewrite <- ?Hi; try done.
      intros t' Hb. unfold put in Hb. destruct (decide (t' = t)); [done|]. by apply I3.
    + intros j. case_decide as Hd; [subst; by right|by left].
    + intros j Hj. case_decide; done.
    + intros _ j [= <-]. by rewrite decide_True.
  - split; [done|]. split; [done|]. split; [by left|]. split; [done|]. done.
Qed.

Lemma run_inv conf es r w : sane conf → winv conf r w → protocol r es →
  match run conf es w with Ok w' => ∃ r', winv conf r' w' | Fatal => True | _ => False end.
Proof.
  intros Hs. revert r w. induction es as [|e es IH]; intros r w HI HP; [by exists r|]. cbn [run].
  destruct e as [i|i|t]; cbn [happen protocol] in *.
  - destruct HP as [Hi HP]. pose proof (start_inv conf r i w Hs HI Hi) as H. destruct (start conf i w) as [w'| | |]; try done. apply (IH (i :: r)); tauto.
  - destruct HP as [Hi HP]. pose proof (finish_inv conf r i w Hs HI Hi) as H. destruct (finish conf i w) as [w'| | |]; try done. apply (IH (filter (λ j, j ≠ i) r)); tauto.
  - pose proof (ring_inv conf r t w HI) as H. destruct (ring t w) as [w'| | |]; try done. apply (IH r); tauto.
Qed.

Lemma winv0 conf : winv conf [] world0.
Proof. split; [done|]. split; [set_solver|]. split; [done|]. split; [done|]. done. Qed.

(** The limits running after [es]. *)
Fixpoint running (r : list nat) (es : list event) : list nat :=
  match es with
  | [] => r
  | Start i :: es' => running (i :: r) es'
  | Finish i :: es' => running (filter (λ j, j ≠ i) r) es'
  | Ring _ :: es' => running r es'
  end.

Lemma run_running conf es r w w' : sane conf → winv conf r w → protocol r es → run conf es w = Ok w' → winv conf (running r es) w'.
Proof.
  intros Hs. revert r w. induction es as [|e es IH]; intros r w HI HP; cbn [run running].
  { by intros [= <-]. }
  destruct e as [i|i|t]; cbn [happen protocol] in *.
  - destruct HP as [Hi HP]. pose proof (start_inv conf r i w Hs HI Hi) as H. destruct (start conf i w) as [w1| | |]; try done. apply IH; tauto.
  - destruct HP as [Hi HP]. pose proof (finish_inv conf r i w Hs HI Hi) as H. destruct (finish conf i w) as [w1| | |]; try done. apply IH; tauto.
  - pose proof (ring_inv conf r t w HI) as H. destruct (ring t w) as [w1| | |]; try done. apply IH; tauto.
Qed.

(** C126: searches that start and finish their limits in turn are never killed by a timer and never crash in the
    handler, whatever the timing; the only error is the one for a second limit with a time started
    while another one runs. *)
Theorem C126_safe conf es : sane conf → protocol [] es → run conf es world0 ≠ Killed ∧ run conf es world0 ≠ Crash.
Proof.
  intros Hs HP. pose proof (run_inv conf es [] world0 Hs (winv0 conf) HP) as H. by destruct (run conf es world0).
Qed.

(** C126: at any time at most one limit with a time is running, and a timer that runs out marks that limit and no
    other one. *)
Theorem C126_marks conf es w t w' : sane conf → protocol [] es → run conf es world0 = Ok w → ring t w = Ok w' →
  (∀ i j, i ∈ running [] es → j ∈ running [] es → timedlimit (conf i) → timedlimit (conf j) → i = j) ∧
  (∀ j, timeup w j = false → timeup w' j = true → j ∈ running [] es ∧ timedlimit (conf j)) ∧
  (armed w t = true → ∃ j, j ∈ running [] es ∧ timedlimit (conf j) ∧ timeup w' j = true).
Proof.
  intros Hs HP HR Hring. pose proof (run_running conf es [] world0 w Hs (winv0 conf) HP HR) as HI.
  pose proof (ring_inv conf _ t w HI) as Hr. rewrite Hring in Hr. destruct Hr as (HI' & _ & Hup & _ & Hset).
  destruct HI as (I1 & I2 & I3 & I4 & I5). split; [|split].
  - intros i j Hi Hj Hti Htj. pose proof (I2 i Hi Hti) as E1. pose proof (I2 j Hj Htj) as E2. congruence.
  - intros j Hf Ht. destruct (Hup j Ht) as [|Htm]; [congruence|]. by apply I1.
  - intros Ha. destruct (I3 t Ha) as [_ [i Hi]]. exists i. destruct (I1 i Hi). split; [done|]. split; [done|]. by apply Hset.
Qed.

(** C126: a limit that has been started has its timers armed for its times. *)
Theorem C126_armed conf es i w w' : sane conf → protocol [] (es ++ [Start i]) → run conf es world0 = Ok w → start conf i w = Ok w' →
  (0 < walltime (conf i) → armed w' Real = true) ∧ (0 < cputime (conf i) → armed w' Prof = true).
Proof.
  intros Hs HP HR. unfold start.
  destruct ((walltime (conf i) =? 0) && (cputime (conf i) =? 0)) eqn:E.
  - intros [= <-]. apply andb_true_iff in E as [E1 E2]. apply Z.eqb_eq in E1, E2. lia.
  - set (w1 := match timed w with None => _ | Some _ => _ end). case_decide; [|done]. intros [= <-].
    split; intros Hp.
    + rewrite (proj2 (Z.ltb_lt 0 (walltime (conf i))) Hp). by destruct (0 <? cputime (conf i)).
    + rewrite (proj2 (Z.ltb_lt 0 (cputime (conf i))) Hp). by destruct (0 <? walltime (conf i)).
Qed.

(** C126: a limit whose time has run out stays so: nothing resets the mark, so a search algorithm that is used again
    stops at once, whatever its limit. *)
Theorem C126_stays conf es w w' i : run conf es w = Ok w' → timeup w i = true → ∀ e g, reached conf i w' e g = true.
Proof.
  intros HR Hup. assert (timeup w' i = true) as H.
  { revert w HR Hup. induction es as [|e es IH]; intros w HR Hup; cbn [run] in HR; [by injection HR as <-|].
    destruct (happen conf e w) as [w1| | |] eqn:E; try done. apply (IH w1 HR).
    destruct e as [j|j|t]; cbn [happen] in E.
    - unfold start in E. destruct (_ && _); [by injection E as <-|]. case_decide; [|done]. injection E as <-.
      destruct (timed w); destruct (0 <? walltime (conf j)); destruct (0 <? cputime (conf j)); exact Hup.
    - unfold finish in E. destruct (_ && _); [by injection E as <-|]. injection E as <-.
      destruct (0 <? walltime (conf j)); destruct (0 <? cputime (conf j)); exact Hup.
    - unfold ring in E. destruct (armed w t); [|by injection E as <-]. destruct (handled w t); [|done]. destruct (timed w) as [k|]; [|done].
      injection E as <-. cbn [timeup]. case_decide; done. }
  intros e g. unfold reached. by rewrite H.
Qed.

(** C126: a limit is reached when its time has run out or a count has come to the one given, zero being no limit; before
    any timer has gone off only the counts matter. *)
Theorem C126_reached conf es w i e g : run conf es world0 = Ok w →
  (reached conf i w e g = true ↔ timeup w i = true ∨ 0 < expd (conf i) ≤ e ∨ 0 < gend (conf i) ≤ g) ∧
  ((∀ t, Ring t ∉ es) → timeup w i = false).
Proof.
  intros HR. split; [unfold reached; rewrite !orb_true_iff, !andb_true_iff, !Z.ltb_lt, !Z.leb_le; tauto|]. intros Hno.
  assert (∀ w0, run conf es w0 = Ok w → timeup w0 i = false → timeup w i = false) as H; [|by apply (H world0)].
  clear HR. induction es as [|ev es IH]; intros w0 HR Hup; cbn [run] in HR; [by injection HR as <-|].
  destruct (happen conf ev w0) as [w1| | |] eqn:E; try done. apply (IH ltac:(set_solver) w1 HR).
  destruct ev as [j|j|t]; cbn [happen] in E.
  - unfold start in E. destruct (_ && _); [by injection E as <-|]. case_decide; [|done]. injection E as <-.
    destruct (timed w0); destruct (0 <? walltime (conf j)); destruct (0 <? cputime (conf j)); exact Hup.
  - unfold finish in E. destruct (_ && _); [by injection E as <-|]. injection E as <-.
    destruct (0 <? walltime (conf j)); destruct (0 <? cputime (conf j)); exact Hup.
  - exfalso. apply (Hno t). set_solver.
Qed.
Example C126_reached_ex : ∃ w, run (λ _, Limit 5 0 0 0 0) [Start 0%nat] world0 = Ok w ∧
  reached (λ _, Limit 5 0 0 0 0) 0 w 4 9 = false ∧ reached (λ _, Limit 5 0 0 0 0) 0 w 5 9 = true.
Proof. eexists. split; [vm_compute; reflexivity|]. vm_compute. done. Qed.

(** So a second run with the same limit, with an hour to go, reports that its limit is reached before it has begun. *)
Definition hour : nat → limit := λ _, Limit 0 0 0 0 3600.
Theorem C126_reuse_refuted : ∃ es w, protocol [] (es ++ [Start 0]) ∧ run hour (es ++ [Start 0]) world0 = Ok w ∧
  0%nat ∉ running [] es ∧ armed w Real = true ∧ reached hour 0 w 0 0 = true.
Proof.
  exists [Start 0%nat; Ring Real; Finish 0%nat]. eexists. split; [cbn; set_solver|]. split; [vm_compute; reflexivity|]. split; [set_solver|]. split; vm_compute; done.
Qed.

(** Finishing a limit that has not been started breaks it: the timer of the running one goes off with nothing to mark. *)
Example C126_unmatched : run hour [Start 0; Finish 1; Ring Real] world0 = Ok (World None (put Real false (put Real true (λ _, false))) (put Real false (put Real true (λ _, false))) (λ _, false)) ∨
  run (λ i, if decide (i = 0%nat) then Limit 0 0 0 0 3600 else Limit 0 0 0 10 0) [Start 0; Finish 1; Ring Real] world0 = Crash.
Proof. right. vm_compute. done. Qed.

Example C126_ex : sane hour ∧ protocol [] [Start 0; Start 1] ∧ run hour [Start 0; Start 1] world0 = Fatal.
Proof. split; [by intros i|]. split; [cbn; set_solver|]. vm_compute. done. Qed.

Print Assumptions C123_number.
Print Assumptions C123_lines.
Print Assumptions C123_limits.
Print Assumptions C123_accepted.
Print Assumptions C124_lookahead.
Print Assumptions C124_accepted.
Print Assumptions C124_expansions.
Print Assumptions C125_table.
Print Assumptions C125_no_table.
Print Assumptions C125_maxlss.
Print Assumptions C125_affordable_refuted.
Print Assumptions C125_deadline.
Print Assumptions C126_safe.
Print Assumptions C126_marks.
Print Assumptions C126_armed.
Print Assumptions C126_stays.
Print Assumptions C126_reached.
Print Assumptions C126_reuse_refuted.
