(** C64, C82: segment operators are undone by their reverses, the cached lines and counts are right, printed
    operators are read back; the bounds of the workspace. *)
From stdpp Require Import prelude.
From Coq Require Import ZArith Lia ZifyBool ZifyNat.
From Verif Require Import Text.Model Segments.Model.
Local Open Scope Z_scope.

(** ** Numbers and the stream *)
Lemma isdigit_spec c : isdigit c = true ↔ 48 ≤ c ≤ 57.
Proof. unfold isdigit. lia. Qed.

Lemma span_all f (a b : list Z) : Forall (λ c, f c = true) a → (∀ c, head b = Some c → f c = false) → span f (a ++ b) = (a, b).
Proof.
  intros Ha Hb. induction Ha as [|c a Hc Ha IH]; simpl.
  - destruct b as [|c b]; [done|]. simpl. by rewrite (Hb c eq_refl).
  - by rewrite Hc, IH.
Qed.

Lemma number_app a b : fold_left (λ n c, 10 * n + (c - 48)) (a ++ b) 0 = fold_left (λ n c, 10 * n + (c - 48)) b (number a).
Proof. apply fold_left_app. Qed.

Lemma digits_spec fuel : ∀ n acc, 0 ≤ n < 10 ^ Z.of_nat fuel →
  ∃ ds, digits fuel n acc = ds ++ acc ∧ Forall (λ c, isdigit c = true) ds ∧ (0 < fuel → ds ≠ [])%nat ∧ number ds = n.
Proof.
  induction fuel as [|fuel IH]; intros n acc Hn.
  { exists []. split_and!; [done|constructor|lia|]. change (number []) with 0. rewrite Z.pow_0_r in Hn. lia. }
  cbn [digits]. pose proof (Z.mod_pos_bound n 10 ltac:(lia)). destruct (Z.ltb_spec n 10).
  - exists [48 + n mod 10]. split_and!; [done| |done|].
    + constructor; [|constructor]. apply isdigit_spec. lia.
    + unfold number. cbn. rewrite Z.mod_small by lia. lia.
  - destruct (IH (n / 10) (48 + n mod 10 :: acc)) as (ds & -> & Hd & _ & Hv).
    { rewrite Nat2Z.inj_succ, Z.pow_succ_r in Hn by lia. split; [apply Z.div_pos; lia|]. apply Z.div_lt_upper_bound; lia. }
    exists (ds ++ [48 + n mod 10]). split_and!.
    + by rewrite <- app_assoc.
    + apply Forall_app. split; [done|]. constructor; [|constructor]. apply isdigit_spec. lia.
    + by destruct ds.
    + unfold number at 1. rewrite number_app, Hv. cbn. pose proof (Z.div_mod n 10 ltac:(lia)). lia.
Qed.

Lemma show_read z r pre : - 2 ^ 31 ≤ z < 2 ^ 31 → (∀ c, head r = Some c → isdigit c = false) → Forall (λ c, isspace c = true) pre →
  readint (Stream (pre ++ show z ++ r) false false) = (Some z, Stream r (bool_decide (r = [])) false).
Proof.
  intros Hz Hr Hp.
  assert (∃ ds, show z = (if z <? 0 then [45] else []) ++ ds ∧ Forall (λ c, isdigit c = true) ds ∧ ds ≠ [] ∧ number ds = Z.abs z)
    as (ds & Hs & Hd & Hne & Hn).
  { unfold show. change (2 ^ 31) with 2147483648 in Hz. destruct (Z.ltb_spec z 0).
    - destruct (digits_spec 11 (- z) []) as (ds & -> & Hd & Hne & Hn); [change (10 ^ Z.of_nat 11) with 100000000000; lia|].
      exists ds. rewrite app_nil_r. split_and!; [done|done|apply Hne; lia|lia].
    - destruct (digits_spec 11 z []) as (ds & -> & Hd & Hne & Hn); [change (10 ^ Z.of_nat 11) with 100000000000; lia|].
      exists ds. rewrite app_nil_r. split_and!; [done|done|apply Hne; lia|lia]. }
  assert (∀ c, isdigit c = true → isspace c = false ∧ (c =? 45) = false ∧ (c =? 43) = false) as Hc.
  { intros c Hc%isdigit_spec. unfold isspace. split_and!; lia. }
  unfold readint. cbn [eof failed orb]. unfold skipws. cbn [left_ eof failed orb].
  rewrite span_all; [|done|].
  2:{ intros c. rewrite Hs. destruct (z <? 0); [by intros [= <-]|]. destruct ds as [|c0 ds]; [done|]. intros [= <-].
      apply Hc. by inversion Hd. }
  cbn [snd left_].
  rewrite bool_decide_eq_false_2. 2:{ rewrite Hs. by destruct (z <? 0), ds. }
  rewrite Hs. change (2 ^ 31) with 2147483648 in *.
  destruct (Z.ltb_spec z 0).
  - cbn [app]. change (45 =? 45) with true. cbn iota. rewrite span_all by done. rewrite bool_decide_eq_false_2 by done.
    rewrite Hn. replace (- Z.abs z) with z by lia.
    replace (z <? - (2147483648)) with false by lia. replace (2147483648 - 1 <? z) with false by lia. done.
  - cbn [app]. destruct ds as [|c ds]; [done|]. cbn [app]. destruct (Hc c ltac:(by inversion Hd)) as (_ & -> & ->).
    rewrite app_comm_cons. rewrite span_all by done. rewrite bool_decide_eq_false_2 by done.
    rewrite Hn. replace (Z.abs z) with z by lia.
    replace (z <? - (2147483648)) with false by lia. replace (2147483648 - 1 <? z) with false by lia. done.
Qed.

Lemma show_read1 z r : - 2 ^ 31 ≤ z < 2 ^ 31 → (∀ c, head r = Some c → isdigit c = false) →
  readint (Stream (space :: show z ++ r) false false) = (Some z, Stream r (bool_decide (r = [])) false).
Proof. intros Hz Hr. apply (show_read z r [space]); [done|done|by repeat constructor]. Qed.

(** An operator that is not a Nop and whose numbers fit an int; a rotation has no dy. *)
Definition printable (o : oper) : Prop :=
  op o ≠ None_ ∧ Z.of_nat (oseg o) < 2 ^ 31 ∧ - 2 ^ 31 ≤ delta o < 2 ^ 31 ∧ - 2 ^ 31 ≤ dy o < 2 ^ 31 ∧ (op o = Rotate → dy o = 0).

Lemma showop_start o s : showop o = Some s → ∃ c r, s = c :: r ∧ isdigit c = false ∧ isspace c = false.
Proof. unfold showop. destruct (op o); [done|..]; intros [= <-]; by eexists _, _. Qed.

Lemma scan_op fuel o s r ops : printable o → showop o = Some s → (∀ c, head r = Some c → isdigit c = false) →
  scanloop (S fuel) (Stream (s ++ r) false false) ops = scanloop fuel (Stream r (bool_decide (r = [])) false) (ops ++ [o]).
Proof.
  intros (Hk & Hs & Hd & Hy & Hr) Hsh Hh. cbn [scanloop eof].
  assert (∀ c t, readchar (Stream (c :: space :: t) false false) = (if isspace c then readchar (Stream (space :: t) false false) else (Some c, Stream (space :: t) false false))) as Hrc.
  { intros c t. unfold readchar, skipws. cbn [eof failed orb left_]. cbn [span]. destruct (isspace c); [|done].
    change (isspace space) with true. cbn iota. destruct (span isspace t) eqn:E. cbn [snd left_]. done. }
  assert (isspace c_r = false ∧ isspace c_m = false) as [Hsr Hsm] by done.
  assert (Z.to_nat (u32 (Z.of_nat (oseg o))) = oseg o) as Hseg.
  { unfold u32. rewrite Z.mod_small; [lia|]. change (2 ^ 31) with 2147483648 in *. change (2 ^ 32) with 4294967296. lia. }
  assert (- 2 ^ 31 ≤ Z.of_nat (oseg o) < 2 ^ 31) as Hs' by (change (2 ^ 31) with 2147483648 in *; lia).
  destruct o as [k sg dl y]. cbn [op oseg delta dy] in *. destruct k; [done|..]; unfold showop in Hsh; cbn [op oseg delta dy] in Hsh; injection Hsh as <-.
  - repeat (cbn [app]; rewrite <- ?app_assoc). rewrite Hrc, Hsr.
    rewrite show_read1; [|done|by intros c [= <-]].
    rewrite bool_decide_eq_false_2 by done. cbn [eof]. cbn [mbind option_bind].
    change (c_r =? c_m) with false. change (c_r =? c_r) with true. cbn iota.
    rewrite show_read1; [|done|done]. cbn [mbind option_bind]. rewrite Hseg, (Hr eq_refl). done.
  - repeat (cbn [app]; rewrite <- ?app_assoc). rewrite Hrc, Hsm.
    rewrite show_read1; [|done|by intros c [= <-]].
    rewrite bool_decide_eq_false_2 by done. cbn [eof]. cbn [mbind option_bind].
    change (c_m =? c_m) with true. cbn iota.
    rewrite show_read1; [|done|by intros c [= <-]].
    rewrite bool_decide_eq_false_2 by done. cbn [mbind option_bind].
    rewrite show_read1; [|done|done]. cbn [mbind option_bind]. rewrite Hseg. done.
Qed.

Lemma showops_head os s : showops os = Some s → ∀ c, head s = Some c → isdigit c = false.
Proof.
  destruct os as [|o os]; cbn [showops]; [by intros [= <-]|]. destruct (showop o) as [a|] eqn:E; [|done]. cbn [mbind option_bind].
  destruct (showops os) as [b|]; [|done]. intros [= <-]. apply showop_start in E as (c & r & -> & Hc & _). by intros c' [= <-].
Qed.

Lemma scan_ops os : ∀ s fuel ops, Forall printable os → showops os = Some s → os ≠ [] → (length s < fuel)%nat →
  scanloop fuel (Stream s false false) ops = Some (ops ++ os).
Proof.
  induction os as [|o os IH]; intros s fuel ops Hp Hs Hne Hf; [done|]. cbn [showops] in Hs.
  destruct (showop o) as [a|] eqn:Ea; [|done]. cbn [mbind option_bind] in Hs. destruct (showops os) as [b|] eqn:Eb; [|done].
  injection Hs as <-. inversion Hp as [|? ? Hpo Hpos]; subst. destruct fuel as [|fuel]; [lia|].
  rewrite (scan_op fuel o a b ops Hpo Ea (showops_head _ _ Eb)).
  destruct (showop_start _ _ Ea) as (c & r & -> & _). rewrite app_length in Hf. simpl in Hf.
  destruct os as [|o' os].
  - injection Eb as <-. destruct fuel as [|fuel]; [lia|]. done.
  - assert (b ≠ []) as Hb. { cbn [showops] in Eb. destruct (showop o') as [x|] eqn:Ex; [|done]. cbn [mbind option_bind] in Eb.
      destruct (showops os); [|done]. injection Eb as <-. apply showop_start in Ex as (? & ? & -> & _). done. }
    rewrite bool_decide_eq_false_2 by done. rewrite (IH b fuel _ Hpos eq_refl ltac:(done) ltac:(lia)). by rewrite <- app_assoc.
Qed.

(** The path string printed for a solution - the operators with the last one first - is read back as the operators in
    the order of their application. *)
Theorem C64_path_string ops :
  Forall printable ops → ∃ s, pathstring ops = Some s ∧ scanops s = Some (reverse ops).
Proof.
  intros Hp. assert (Forall printable (reverse ops)) as Hr by (by apply Forall_reverse). unfold pathstring, scanops.
  revert Hr. generalize (reverse ops). clear ops Hp. intros os Hp.
  assert (∃ s, showops os = Some s) as (s & Hs).
  { clear -Hp. induction Hp as [|o os (Hk & _) Hp (s & Hs)]; [by exists []|]. cbn [showops].
    destruct (showop o) as [a|] eqn:E; [|unfold showop in E; by destruct (op o)]. cbn [mbind option_bind]. rewrite Hs. by eexists. }
  exists s. split; [done|]. destruct os as [|o os].
  - injection Hs as <-. done.
  - rewrite (scan_ops (o :: os) s (S (length s)) [] Hp Hs ltac:(done) ltac:(lia)). done.
Qed.

Example path_string_example :
  let ops := [Oper Rotate 0 (-1) 0; Oper Move 12 1 (-1); Oper Move 3 0 1; Oper Rotate 1 1 0] in
  Forall printable ops ∧ (s ← pathstring ops; scanops s) = Some (reverse ops) ∧
  (* "r 1 1m 3 0 1m 12 1 -1r 0 -1" *)
  pathstring ops = Some [114; 32; 49; 32; 49; 109; 32; 51; 32; 48; 32; 49; 109; 32; 49; 50; 32; 49; 32; 45; 49; 114; 32; 48; 32; 45; 49].
Proof. split_and!; [|vm_compute; reflexivity..]. repeat constructor; done. Qed.

(** ** States *)
Section states.
Context {L : Type} (nangles : Z) (segs : list seg) (line : nat → pose → L).
Notation state := (@state L).

(** The number of segments that are not at their goals. *)
Definition misplaced (ps : list pose) : nat := length (filter (λ q, q.1 ≠ goal q.2) (zip ps segs)).

(** One pose for each segment, and what is cached about them is right. *)
Definition good (s : state) : Prop :=
  length (poses s) = length segs ∧ lines s = imap line (poses s) ∧ nleft s = misplaced (poses s).

Lemma initloop_spec ps : ∀ i, (length ps ≤ length (drop i segs))%nat →
  initloop segs line i ps = Some (imap (λ j, line (i + j)) ps, length (filter (λ q, q.1 ≠ goal q.2) (zip ps (drop i segs)))).
Proof.
  induction ps as [|p ps IH]; intros i Hl; [done|]. cbn [initloop].
  destruct (drop i segs) as [|sg rest] eqn:Ed; [simpl in Hl; lia|].
  assert (segs !! i = Some sg) as Hi. { rewrite <- (Nat.add_0_r i) at 1. by rewrite <- lookup_drop, Ed. }
  assert (drop (S i) segs = rest) as Ed'. { change (S i) with (1 + i)%nat. rewrite Nat.add_comm, <- drop_drop, Ed. done. }
  rewrite Hi. cbn [mbind option_bind]. rewrite IH by (rewrite Ed'; simpl in Hl; lia). cbn [mbind option_bind]. rewrite Ed'.
  f_equal. f_equal.
  - cbn [imap]. rewrite Nat.add_0_r. f_equal. apply imap_ext. intros j x _. unfold compose. f_equal. lia.
  - cbn [zip zip_with]. rewrite filter_cons. cbn [fst snd]. case_decide; [|done]. done.
Qed.

Lemma init_spec ps x y : length ps = length segs → init segs line ps x y = Some (State x y ps (imap line ps) (misplaced ps)).
Proof.
  intros Hl. unfold init. rewrite initloop_spec by (rewrite drop_0, Hl; reflexivity). cbn [mbind option_bind]. simpl.
  done.
Qed.

Lemma misplaced_insert ps i p p' sg : ps !! i = Some p → segs !! i = Some sg →
  (misplaced (<[i := p']> ps) + (if decide (p ≠ goal sg) then 1 else 0) = misplaced ps + (if decide (p' ≠ goal sg) then 1 else 0))%nat.
Proof.
  unfold misplaced. revert i. generalize segs as sgs. induction ps as [|q ps IH]; intros sgs i Hp Hs; [done|].
  destruct sgs as [|sq sgs]; [done|]. destruct i as [|i].
  - injection Hp as ->. injection Hs as ->. cbn [zip zip_with]. simpl insert. cbn [zip zip_with]. rewrite !filter_cons. cbn [fst snd].
    repeat case_decide; simpl; try lia; done.
  - simpl insert. cbn [zip zip_with]. rewrite !filter_cons. cbn [fst snd]. specialize (IH sgs i Hp Hs).
    destruct (decide (q ≠ goal sq)); cbn [length]; lia.
Qed.

Lemma misplaced_pos ps i p sg : ps !! i = Some p → segs !! i = Some sg → p ≠ goal sg → (0 < misplaced ps)%nat.
Proof.
  unfold misplaced. revert i. generalize segs as sgs. induction ps as [|q ps IH]; intros sgs i Hp Hs Hne; [done|].
  destruct sgs as [|sq sgs]; [done|]. cbn [zip zip_with]. rewrite filter_cons. cbn [fst snd]. destruct i as [|i].
  - injection Hp as ->. injection Hs as ->. rewrite decide_True by done. simpl. lia.
  - specialize (IH sgs i Hp Hs Hne). case_decide; simpl; lia.
Qed.

Lemma misplaced_zero ps : length ps = length segs → misplaced ps = 0%nat ↔ ps = goal <$> segs.
Proof.
  unfold misplaced. generalize segs as sgs. induction ps as [|q ps IH]; intros sgs Hl; destruct sgs as [|sq sgs]; try done.
  cbn [zip zip_with]. rewrite filter_cons. cbn [fst snd]. simpl in Hl. rewrite fmap_cons. case_decide as Hd.
  - split; [done|]. intros [= -> _]. done.
  - subst q. rewrite IH by lia. split; [by intros ->|by intros [= ->]].
Qed.

Lemma edge_good s o c r rc s' : good s → edge nangles segs line s o = Some (c, r, rc, s') → good s'.
Proof.
  intros (Hl & Hli & Hn) He. unfold edge in He. destruct (cost o s) as [c0|]; [|done]. cbn [mbind option_bind] in He.
  assert (∀ p sg rcx, poses s !! oseg o = Some p → segs !! oseg o = Some sg →
    Some (c0, reverse_op o, Some rcx, State (px (newpose nangles o p)) (py (newpose nangles o p)) (<[oseg o := newpose nangles o p]> (poses s))
      (<[oseg o := line (oseg o) (newpose nangles o p)]> (lines s))
      (if decide (p = goal sg) then if decide (newpose nangles o p = goal sg) then nleft s else S (nleft s)
       else if decide (newpose nangles o p = goal sg) then (nleft s - 1)%nat else nleft s)) = Some (c, r, rc, s') → good s') as Hmain.
  { intros p sg rcx Hp Hs Heq. injection Heq as _ _ _ <-. split_and!; cbn [poses lines nleft].
    - by rewrite insert_length.
    - rewrite Hli. apply list_eq. intros j. rewrite list_lookup_imap. destruct (decide (j = oseg o)) as [->|Hj].
      + assert (oseg o < length (poses s))%nat by (by eapply lookup_lt_Some).
        rewrite !list_lookup_insert by (rewrite ?imap_length; done). done.
      + rewrite !list_lookup_insert_ne by done. by rewrite list_lookup_imap.
    - pose proof (misplaced_insert (poses s) (oseg o) p (newpose nangles o p) sg Hp Hs) as Hc. rewrite Hn.
      destruct (decide (p = goal sg)) as [E|E], (decide (newpose nangles o p = goal sg)) as [E'|E'];
        (destruct (decide (p ≠ goal sg)); [|try done]); (destruct (decide (newpose nangles o p ≠ goal sg)); [|try done]); try done; try lia. }
  destruct (op o); [by injection He as _ _ _ <-|..];
    (destruct (poses s !! oseg o) as [p|] eqn:Hp; [|done]); cbn [mbind option_bind] in He;
    (destruct (segs !! oseg o) as [sg|] eqn:Hs; [|done]); cbn [mbind option_bind] in He;
    (destruct (cost (reverse_op o) _) as [rcx|]; [|done]); cbn [mbind option_bind] in He; by eapply Hmain.
Qed.

Lemma run_good os : ∀ s cs t, good s → run nangles segs line s os = Some (cs, t) → good t.
Proof.
  induction os as [|o os IH]; intros s cs t Hg Hr; cbn [run] in Hr; [by injection Hr as _ <-|].
  destruct (edge nangles segs line s o) as [[[[c r] rc] s']|] eqn:He; [|done]. cbn [mbind option_bind] in Hr.
  destruct (run nangles segs line s' os) as [[cs' t']|] eqn:Er; [|done]. cbn [mbind option_bind] in Hr. injection Hr as _ <-.
  eapply IH; [|done]. by eapply edge_good.
Qed.

(** After any operators from the initial state the cached lines are those of the poses, the count is that of the
    segments that are not at their goals, the goal test is right, and packing loses nothing. *)
Theorem C64_cached os cs s0 s :
  initialstate segs line = Some s0 → run nangles segs line s0 os = Some (cs, s) →
  (∀ i p, poses s !! i = Some p → lines s !! i = Some (line i p)) ∧
  nleft s = length (filter (λ q, q.1 ≠ goal q.2) (zip (poses s) segs)) ∧
  (isgoal s = true ↔ poses s = goal <$> segs) ∧
  unpack segs line (pack s) = Some s.
Proof.
  intros Hi Hr. unfold initialstate in Hi. rewrite init_spec in Hi by (by rewrite fmap_length). apply (inj Some) in Hi.
  assert (good s) as (Hl & Hli & Hn).
  { eapply run_good; [|exact Hr]. subst s0. split_and!; cbn [poses lines nleft]; [by rewrite fmap_length|done|done]. }
  split_and!.
  - intros i p Hp. by rewrite Hli, list_lookup_imap, Hp.
  - exact Hn.
  - unfold isgoal. rewrite Hn, <- misplaced_zero by done. destruct (misplaced (poses s)); simpl; split; done.
  - unfold unpack, pack. cbn [k_poses k_x k_y]. rewrite init_spec by done. destruct s; cbn in *. by subst.
Qed.

(** *** The reverse operator *)
Lemma i32_small z : - 2 ^ 31 ≤ z < 2 ^ 31 → i32 (u32 z) = z.
Proof.
  intros Hz. unfold i32, u32. change (2 ^ 31) with 2147483648 in *. change (2 ^ 32) with 4294967296.
  rewrite Zplus_mod_idemp_l. rewrite Z.mod_small by lia. lia.
Qed.
Lemma wrapind_mod i n : 0 < n → wrapind i n = i mod n.
Proof.
  intros Hn. unfold wrapind. rewrite Z.rem_mod by lia. rewrite (Z.abs_eq n) by lia.
  pose proof (Z.mod_pos_bound i n Hn). pose proof (Z.mod_pos_bound (Z.abs i) n Hn).
  destruct (Z_lt_le_dec i 0).
  - rewrite Z.sgn_neg, Z.abs_neq in * by lia. destruct (Z.eq_dec (i mod n) 0) as [E|E].
    + rewrite Z.mod_opp_l_z by lia. rewrite E. done.
    + rewrite Z.mod_opp_l_nz by lia. destruct (Z.ltb_spec (-1 * (n - i mod n)) 0); lia.
  - rewrite Z.abs_eq by lia. destruct (Z.eq_dec i 0) as [->|]; [done|]. rewrite Z.sgn_pos by lia.
    destruct (Z.ltb_spec (1 * (i mod n)) 0); lia.
Qed.

(** A pose as it is stored: unsigned coordinates, a rotation below the number of angles. *)
Definition pose_in (p : pose) : Prop := 0 ≤ px p < 2 ^ 32 ∧ 0 ≤ py p < 2 ^ 32 ∧ 0 ≤ rot p < nangles.
(** Numbers far from the limits of int. *)
Definition small (o : oper) : Prop := nangles < 2 ^ 30 ∧ - 2 ^ 30 < delta o < 2 ^ 30.

Lemma newpose_reverse o p : pose_in p → small o → newpose nangles (reverse_op o) (newpose nangles o p) = p.
Proof.
  intros (Hx & Hy & Hr) (Hn & Hd). destruct o as [k sg dl y], p as [x0 y0 r0]. cbn [px py rot delta] in *.
  change (2 ^ 30) with 1073741824 in *.
  unfold newpose, reverse_op. destruct k; cbn [op delta dy oseg px py rot]; [done|..].
  - f_equal. rewrite (i32_small (r0 + dl)) by (change (2 ^ 31) with 2147483648; lia).
    pose proof (Z.mod_pos_bound (r0 + dl) nangles ltac:(lia)).
    rewrite !wrapind_mod by lia. rewrite i32_small by (change (2 ^ 31) with 2147483648; lia).
    rewrite Zplus_mod_idemp_l. replace (r0 + dl + - dl) with r0 by lia. by apply Z.mod_small.
  - unfold u32. rewrite !Zplus_mod_idemp_l. rewrite !Z.add_opp_r, !Z.add_simpl_r, !Z.mod_small by done. done.
Qed.

(** Applying an operator and then the reverse operator its edge reports restores every pose, line and count, at the
    reverse cost the edge reports.  The gripper ends at the segment, wherever it was before. *)
Theorem C64_reverse s o c r rc s' :
  good s → (∀ p, p ∈ poses s → pose_in p) → small o → op o ≠ None_ →
  edge nangles segs line s o = Some (c, r, rc, s') →
  ∃ c' rc' s'' p, edge nangles segs line s' r = Some (c', o, rc', s'') ∧ rc = Some c' ∧
    poses s'' = poses s ∧ lines s'' = lines s ∧ nleft s'' = nleft s ∧
    poses s !! oseg o = Some p ∧ gx s'' = px p ∧ gy s'' = py p ∧
    (gx s = px p → gy s = py p → s'' = s).
Proof.
  intros Hg Hin Hsm Hk He. pose proof (edge_good _ _ _ _ _ _ Hg He) as Hg'. pose proof Hg as (Hl & Hli & Hn).
  assert (reverse_op (reverse_op o) = o) as Hrr.
  { destruct o as [k sg dl y]. unfold reverse_op. destruct k; cbn; [done|..]; by rewrite !Z.opp_involutive. }
  assert (op (reverse_op o) = op o ∧ oseg (reverse_op o) = oseg o) as [Hk' Hsg'].
  { destruct o as [k sg dl y]. unfold reverse_op. by destruct k. }
  unfold edge in He. destruct (cost o s) as [c0|] eqn:Hc; [|done]. cbn [mbind option_bind] in He.
  destruct (poses s !! oseg o) as [p|] eqn:Hp; [|by destruct (op o)].
  destruct (segs !! oseg o) as [sg|] eqn:Hs.
  2:{ apply lookup_ge_None in Hs. apply lookup_lt_Some in Hp. lia. }
  pose proof (newpose_reverse o p (Hin p ltac:(by eapply elem_of_list_lookup_2)) Hsm) as Hnp.
  assert (oseg o < length (poses s))%nat as Hlt by (by eapply lookup_lt_Some).
  set (s1 := State (px (newpose nangles o p)) (py (newpose nangles o p)) (<[oseg o := newpose nangles o p]> (poses s))
      (<[oseg o := line (oseg o) (newpose nangles o p)]> (lines s))
      (if decide (p = goal sg) then if decide (newpose nangles o p = goal sg) then nleft s else S (nleft s)
       else if decide (newpose nangles o p = goal sg) then (nleft s - 1)%nat else nleft s)).
  assert (∃ rcx, cost (reverse_op o) s1 = Some rcx ∧ r = reverse_op o ∧ rc = Some rcx ∧ s' = s1) as (rcx & Hrc & -> & -> & ->).
  { destruct (op o); [done|..]; cbn [mbind option_bind] in He; fold s1 in He;
      (destruct (cost (reverse_op o) s1) as [rcx|]; [|done]); cbn [mbind option_bind] in He; injection He as _ <- <- <-; by exists rcx. }
  assert (poses s1 !! oseg o = Some (newpose nangles o p)) as Hp1 by (by apply list_lookup_insert).
  set (s2 := State (px p) (py p) (poses s) (lines s) (nleft s)).
  assert (<[oseg o := p]> (poses s) = poses s) as Hip by (by apply list_insert_id).
  assert (<[oseg o := line (oseg o) p]> (lines s) = lines s) as Hil.
  { apply list_insert_id. by rewrite Hli, list_lookup_imap, Hp. }
  assert (∃ c2, cost o s2 = Some c2) as (c2 & Hc2).
  { unfold cost in Hc |- *. destruct (op o); [by eexists|..]; cbn [poses s2]; rewrite Hp; cbn [mbind option_bind]; by eexists. }
  exists rcx, (Some c2), s2, p.
  assert ((if decide (newpose nangles o p = goal sg) then if decide (p = goal sg) then nleft s1 else S (nleft s1)
       else if decide (p = goal sg) then (nleft s1 - 1)%nat else nleft s1) = nleft s) as Hnl.
  { subst s1. cbn [nleft]. destruct (decide (p = goal sg)) as [E|E], (decide (newpose nangles o p = goal sg)) as [E'|E']; [done|lia| |done].
    pose proof (misplaced_pos (poses s) (oseg o) p sg Hp Hs E). lia. }
  split_and!; [|done..|].
  - unfold edge. rewrite Hrc. cbn [mbind option_bind]. rewrite Hk', Hsg', Hp1, Hs, Hrr. cbn [mbind option_bind]. rewrite Hnp, Hnl.
    replace (<[oseg o := p]> (poses s1)) with (poses s) by (subst s1; cbn [poses]; by rewrite list_insert_insert, Hip).
    replace (<[oseg o := line (oseg o) p]> (lines s1)) with (lines s) by (subst s1; cbn [lines]; by rewrite list_insert_insert, Hil).
    fold s2. rewrite Hc2. cbn [mbind option_bind]. by destruct (op o).
  - intros Hx Hy. subst s2. destruct s. cbn in *. by subst.
Qed.
End states.

(** *** Examples: two segments, eight angles; a line is the segment's number and its pose. *)
Definition ex_segs : list seg := [Seg (Pose 5 5 0) (Pose 5 5 0); Seg (Pose 12 4 7) (Pose 13 3 0)].
Definition ex_line (i : nat) (p : pose) : nat * pose := (i, p).
Definition ex_ops : list oper := [Oper Rotate 1 1 0; Oper Move 0 0 (-1); Oper Move 1 1 (-1); Oper Move 0 0 1].

(** Both segments are moved, one away from its goal and back; the other one reaches its goal. *)
Example cached_run :
  ∃ s0 cs s, initialstate ex_segs ex_line = Some s0 ∧ nleft s0 = 1%nat ∧
    run 8 ex_segs ex_line s0 ex_ops = Some (cs, s) ∧ isgoal s = true ∧
    cs = [SCost 160 1 0; SCost 50 1 0; SCost 49 0 1; SCost 65 1 0].
Proof.
  eexists _, _, _. split; [vm_compute; reflexivity|]. split; [reflexivity|]. split; [vm_compute; reflexivity|].
  split; reflexivity.
Qed.

(** The hypotheses of [C64_reverse]; the gripper, which was at the origin, is not taken back. *)
Theorem C64_reverse_gripper_refuted :
  ∃ (s s' s'' : @state (nat * pose)) o c r rc c' o' rc',
    initialstate ex_segs ex_line = Some s ∧
    good ex_segs ex_line s ∧ (∀ p, p ∈ poses s → pose_in 8 p) ∧ small 8 o ∧ op o ≠ None_ ∧
    edge 8 ex_segs ex_line s o = Some (c, r, rc, s') ∧ edge 8 ex_segs ex_line s' r = Some (c', o', rc', s'') ∧
    s'' ≠ s ∧ gx s'' = 5.
Proof.
  eexists _, _, _, (Oper Move 0 1 1), _, _, _, _, _, _. split_and!.
  - vm_compute. reflexivity.
  - split_and!; reflexivity.
  - intros p Hp. cbn in Hp. rewrite !elem_of_cons, elem_of_nil in Hp. unfold pose_in.
    change (2 ^ 32) with 4294967296. destruct Hp as [-> | [-> | []]]; cbn; lia.
  - unfold small. cbn. lia.
  - done.
  - vm_compute. reflexivity.
  - vm_compute. reflexivity.
  - discriminate.
  - reflexivity.
Qed.

(** ** C82: the bounds of the workspace *)
(** The point lies on the line between the two others. *)
Definition on (l : (Z * Z) * (Z * Z)) (q : Z * Z) : Prop :=
  (q.1 - l.1.1) * (l.2.2 - l.1.2) = (q.2 - l.1.2) * (l.2.1 - l.1.1) ∧
  Z.min l.1.1 l.2.1 ≤ q.1 ≤ Z.max l.1.1 l.2.1 ∧ Z.min l.1.2 l.2.2 ≤ q.2 ≤ Z.max l.1.2 l.2.2.
Definition onbounds (ls : list ((Z * Z) * (Z * Z))) (q : Z * Z) : Prop := ∃ l, l ∈ ls ∧ on l q.
(** The border of the rectangle from the origin to (a, b). *)
Definition border (a b : Z) (q : Z * Z) : Prop :=
  0 ≤ q.1 ≤ a ∧ 0 ≤ q.2 ≤ b ∧ (q.1 = 0 ∨ q.1 = a ∨ q.2 = 0 ∨ q.2 = b).

Lemma onbounds4 a b c d q : onbounds [a; b; c; d] q ↔ on a q ∨ on b q ∨ on c q ∨ on d q.
Proof.
  unfold onbounds. split.
  - intros (l & Hl & Ho). rewrite !elem_of_cons, elem_of_nil in Hl. destruct Hl as [-> | [-> | [-> | [-> | []]]]]; tauto.
  - intros [H | [H | [H | H]]]; eexists; (split; [|exact H]); rewrite !elem_of_cons; tauto.
Qed.

(** A problem that is read from a file is bounded by the border of a rectangle whose width is the file's height and
    whose height is the file's width. *)
Theorem C82_file_bounds_transposed w h q : 0 < w → 0 < h → onbounds (bounds_file w h) q ↔ border h w q.
Proof.
  intros Hw Hh. unfold bounds_file. rewrite onbounds4. unfold on, border. destruct q as [x y]. cbn [fst snd].
  split.
  - intros [(E & Hx & Hy) | [(E & Hx & Hy) | [(E & Hx & Hy) | (E & Hx & Hy)]]]; lia.
  - intros (Hx & Hy & [H | [H | [H | H]]]); subst; [left|right; right; left|do 3 right|right; left]; (split; [ring|lia]).
Qed.

(** So it is the right border for a square only. *)
Theorem C82_file_bounds_square w h : 0 < w → 0 < h → (∀ q, onbounds (bounds_file w h) q ↔ border w h q) ↔ w = h.
Proof.
  intros Hw Hh. split.
  - intros Hq. pose proof (Hq (w, h)) as H1. rewrite C82_file_bounds_transposed in H1 by done. unfold border in H1. cbn [fst snd] in H1. lia.
  - intros ->. intros q. by apply C82_file_bounds_transposed.
Qed.

(** A generated problem has no left bound, and a diagonal across its workspace. *)
Theorem C82_generated_bounds w h :
  0 < w → 0 < h →
  (∀ y, 0 < y < h → border w h (0, y) ∧ ¬ onbounds (bounds_seg w h) (0, y)) ∧
  (∀ x y, 0 < x < w → 0 < y < h → x * h + y * w = w * h → ¬ border w h (x, y) ∧ onbounds (bounds_seg w h) (x, y)).
Proof.
  intros Hw Hh. unfold bounds_seg. split.
  - intros y Hy. rewrite onbounds4. unfold on, border. cbn [fst snd]. split; [lia|].
    intros [(E & Hx' & Hy') | [(E & Hx' & Hy') | [(E & Hx' & Hy') | (E & Hx' & Hy')]]]; [lia|lia|lia|].
    assert ((h - y) * w = 0) as E' by lia. apply Z.mul_eq_0 in E'. lia.
  - intros x y Hx Hy Hd. rewrite onbounds4. unfold on, border. cbn [fst snd]. split; [lia|]. do 3 right. split; [lia|]. split; lia.
Qed.
Example generated_bounds_example : onbounds (bounds_seg 10 20) (5, 10) ∧ ¬ border 10 20 (5, 10) ∧ ¬ onbounds (bounds_seg 10 20) (0, 7).
Proof.
  destruct (C82_generated_bounds 10 20 ltac:(lia) ltac:(lia)) as [H1 H2].
  destruct (H1 7 ltac:(lia)), (H2 5 10 ltac:(lia) ltac:(lia) ltac:(lia)). done.
Qed.

Print Assumptions C64_path_string.
Print Assumptions C64_cached.
Print Assumptions C64_reverse.
Print Assumptions C64_reverse_gripper_refuted.
Print Assumptions C82_file_bounds_transposed.
Print Assumptions C82_file_bounds_square.
Print Assumptions C82_generated_bounds.
