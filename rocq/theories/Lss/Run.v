(** LSS-LRTA-star: from the lookahead to the move, and the whole search. *)
From stdpp Require Import prelude.
From Coq Require Import ZArith Lia ZifyBool ZifyNat.
From Verif Require Import Common.Orders Common.Fuel BinHeap.Model BinHeap.Proofs.
From Verif Require Import Search.Domain Search.Model Search.Props Rta.Model Lss.Model Lss.Learn Lss.Look.
Local Open Scope Z_scope.

(** ** Any values: the moves are walks *)
Section sound.
Context (D : domain) (h : St D → Z) (wt : Z) (onestep : bool) (lim : limits) (stop : nat → nat → bool).
Notation mem := (mem D).
Notation lnode := (lnode D).
Notation lss := (lss D).
Implicit Types (ns : list lnode) (m : mem).

Definition pinv ns : Prop :=
  ∀ i n p, ns !! i = Some n → l_par D n = Some p →
    ∃ pn, ns !! p = Some pn ∧ l_op D n ∈ ops (l_st D pn) ∧ dest (l_st D pn) (l_op D n) = l_st D n.
Definition gok ns (goal : option nat) : Prop := ∀ b, goal = Some b → ∃ n, ns !! b = Some n ∧ isgoal (l_st D n) = true.
Definition ext ns ns' : Prop := ∀ i n, ns !! i = Some n → ∃ n', ns' !! i = Some n' ∧ l_st D n' = l_st D n.

Lemma ext_refl ns : ext ns ns.
Proof. intros i n Hn. eauto. Qed.
Lemma ext_trans ns1 ns2 ns3 : ext ns1 ns2 → ext ns2 ns3 → ext ns1 ns3.
Proof. intros H1 H2 i n Hn. destruct (H1 i n Hn) as (n' & Hn' & E). destruct (H2 i n' Hn') as (n'' & ? & ?). exists n''. split; [done|congruence]. Qed.
Lemma gok_ext ns ns' goal : gok ns goal → ext ns ns' → gok ns' goal.
Proof. intros Hg He b Hb. destruct (Hg b Hb) as (n & Hn & Hgn). destruct (He b n Hn) as (n' & ? & E). exists n'. by rewrite E. Qed.
Lemma ext_insert ns j n n' : ns !! j = Some n → l_st D n' = l_st D n → ext ns (<[j := n']> ns).
Proof.
  intros Hj Hs i a Ha. destruct (decide (i = j)) as [->|Hne].
  - exists n'. rewrite list_lookup_insert by by eapply lookup_lt_Some. split; [done|congruence].
  - exists a. by rewrite list_lookup_insert_ne.
Qed.
Lemma pinv_insert ns j n n' : pinv ns → ns !! j = Some n → l_st D n' = l_st D n →
  (∀ p, l_par D n' = Some p → ∃ pn, ns !! p = Some pn ∧ l_op D n' ∈ ops (l_st D pn) ∧ dest (l_st D pn) (l_op D n') = l_st D n') →
  pinv (<[j := n']> ns).
Proof.
  intros Hp Hj Hs Hn' i a p Ha Hpa. pose proof (ext_insert ns j n n' Hj Hs) as He.
  assert (∃ pn, ns !! p = Some pn ∧ l_op D a ∈ ops (l_st D pn) ∧ dest (l_st D pn) (l_op D a) = l_st D a) as (pn & Hpn & Ho & Hd).
  { apply list_lookup_insert_Some in Ha as [(<- & <- & _)|[_ Ha]]; [by apply Hn'|by eapply Hp]. }
  destruct (He p pn Hpn) as (pn' & Hpn' & E). exists pn'. by rewrite E.
Qed.
Lemma pinv_snoc ns n : pinv ns → l_par D n = None → pinv (ns ++ [n]).
Proof.
  intros Hp Hn i a p [Ha|[_ Ha]]%lookup_app_Some Hpa.
  - destruct (Hp i a p Ha Hpa) as (pn & Hpn & ?). exists pn. split; [|done]. rewrite lookup_app_l; [done|]. by eapply lookup_lt_Some.
  - apply list_lookup_singleton_Some in Ha as [_ <-]. congruence.
Qed.

Lemma relax_sound m i o k c L goal L' goal' sn :
  relax D m i o k c L goal = Some (L', goal') → s_nodes D L !! i = Some sn → o ∈ ops (l_st D sn) → dest (l_st D sn) o = k →
  pinv (s_nodes D L) → gok (s_nodes D L) goal →
  pinv (s_nodes D L') ∧ gok (s_nodes D L') goal' ∧ ext (s_nodes D L) (s_nodes D L').
Proof.
  intros Hr Hsn Ho Hd Hp Hg. unfold relax in Hr. rewrite Hsn in Hr. cbn [mbind option_bind] in Hr.
  case_decide. { apply (inj Some) in Hr. injection Hr as <- <-. split_and!; [done..|apply ext_refl]. }
  destruct (match find_l D (s_nodes D L) k with Some j => (s_nodes D L, j) | None => (s_nodes D L ++ [LNode D k None None nop false false], length (s_nodes D L)) end)
    as [ns j] eqn:Ens.
  assert (pinv ns ∧ ext (s_nodes D L) ns ∧ ∃ kn, ns !! j = Some kn ∧ l_st D kn = k) as (Hp1 & He1 & kn & Hj & Hjk).
  { destruct (find_l D (s_nodes D L) k) as [j'|] eqn:Hf; injection Ens as <- <-.
    - split_and!; [done|apply ext_refl|]. by apply find_l_Some.
    - split_and!; [by apply pinv_snoc| |].
      + intros a n Hn. exists n. split; [|done]. rewrite lookup_app_l; [done|]. by eapply lookup_lt_Some.
      + eexists. split; [by apply list_lookup_middle|done]. }
  rewrite Hj in Hr. cbn [mbind option_bind] in Hr. destruct (l_g D sn) as [sg|]; [|done]. cbn [mbind option_bind] in Hr.
  set (upd := match l_g D kn with None => true | Some kg => bool_decide (sg + c < kg) end) in Hr.
  assert (∃ L1, pinv (s_nodes D L1) ∧ ext ns (s_nodes D L1) ∧
    (kn' ← s_nodes D L1 !! j; if isgoal k then match goal with None => Some (L1, Some j) | Some b =>
        bn ← s_nodes D L1 !! b; kg ← l_g D kn'; bg ← l_g D bn; Some (L1, if bool_decide (kg < bg) then Some j else goal) end
      else Some (L1, goal)) = Some (L', goal')) as (L1 & Hp2 & He2 & Hr').
  { destruct upd.
    - destruct (pushupdate astar_lt _ j _) as [q'|]; [|done]. cbn [mbind option_bind] in Hr.
      eexists. split_and!; [| |exact Hr]; cbn [s_nodes].
      + eapply pinv_insert; [done|exact Hj|done|]. simpl. intros p [= <-].
        destruct (He1 i sn Hsn) as (sn' & Hsn' & E). exists sn'. split; [done|]. rewrite E. split; [done|]. congruence.
      + by eapply ext_insert.
    - cbn [mbind option_bind] in Hr. eexists. split_and!; [| |exact Hr]; [done|apply ext_refl]. }
  clear Hr. assert (ext (s_nodes D L) (s_nodes D L1)) as He by by eapply ext_trans.
  destruct (He2 j kn Hj) as (kn' & Hj' & Ek). rewrite Hj' in Hr'. cbn [mbind option_bind] in Hr'.
  destruct (isgoal k) eqn:Hgk.
  2:{ apply (inj Some) in Hr'. injection Hr' as <- <-. split_and!; [done|by eapply gok_ext|done]. }
  destruct goal as [b|].
  - destruct (s_nodes D L1 !! b) as [bn|]; [|done]. cbn [mbind option_bind] in Hr'. destruct (l_g D kn'); [|done].
    cbn [mbind option_bind] in Hr'. destruct (l_g D bn); [|done]. cbn [mbind option_bind] in Hr'.
    apply (inj Some) in Hr'. injection Hr' as <- <-. split_and!; [done| |done].
    case_bool_decide; [|by eapply gok_ext]. intros b' [= <-]. exists kn'. split; [done|]. congruence.
  - apply (inj Some) in Hr'. injection Hr' as <- <-. split_and!; [done| |done].
    intros b' [= <-]. exists kn'. split; [done|]. congruence.
Qed.

Lemma relaxes_sound m i os : ∀ L goal L' goal' sn,
  relaxes D m i (l_st D sn) os L goal = Some (L', goal') → (∃ a, s_nodes D L !! i = Some a ∧ l_st D a = l_st D sn) →
  (∀ o, o ∈ os → o ∈ ops (l_st D sn)) → pinv (s_nodes D L) → gok (s_nodes D L) goal →
  pinv (s_nodes D L') ∧ gok (s_nodes D L') goal' ∧ ext (s_nodes D L) (s_nodes D L').
Proof.
  induction os as [|o os IH]; intros L goal L' goal' sn Hr (a & Ha & Hs) Hos Hp Hg; cbn [relaxes] in Hr.
  { apply (inj Some) in Hr. injection Hr as <- <-. split_and!; [done..|apply ext_refl]. }
  destruct (edge (l_st D sn) o) as [[k c] r] eqn:E.
  destruct (relax D m i o k c L goal) as [[L1 goal1]|] eqn:E1; [|done]. cbn [mbind option_bind] in Hr.
  destruct (relax_sound m i o k c L goal L1 goal1 a E1 Ha) as (Hp1 & Hg1 & He1); [|unfold dest; by rewrite Hs, E|done|done|].
  { rewrite Hs. apply Hos. left. }
  destruct (He1 i a Ha) as (a' & Ha' & Ea).
  destruct (IH L1 goal1 L' goal' sn Hr) as (Hp2 & Hg2 & He2); [|intros o' Ho'; apply Hos; by right|done|done|].
  { exists a'. split; [done|congruence]. }
  split_and!; [done..|by eapply ext_trans].
Qed.

Lemma eloop_sound fuel k : ∀ j m L st goal m' L' st' goal',
  eloop D lim stop fuel k j m L st goal = Some (m', L', st', goal') → pinv (s_nodes D L) → gok (s_nodes D L) goal →
  pinv (s_nodes D L') ∧ gok (s_nodes D L') goal'.
Proof.
  induction fuel as [|fuel IH]; intros j m L st goal m' L' st' goal' Hr Hp Hg; [done|]. cbn [eloop] in Hr.
  destruct (empty (s_open D L)). { apply (inj Some) in Hr. by injection Hr as <- <- <- <-. }
  destruct (stop k j). { apply (inj Some) in Hr. by injection Hr as <- <- <- <-. }
  destruct (rreached lim st). { apply (inj Some) in Hr. by injection Hr as <- <- <- <-. }
  destruct (pop astar_lt (s_open D L)) as [[q [i|]]|]; [|done..]. cbn [mbind option_bind] in Hr.
  destruct (s_nodes D L !! i) as [sn|] eqn:Hsn; [|done]. cbn [mbind option_bind] in Hr.
  destruct (expand D (l_st D sn) m (rcalled st)) as [m1 st1].
  destruct (relaxes D m1 i (l_st D sn) (ops (l_st D sn)) _ goal) as [[L1 goal1]|] eqn:Er; [|done].
  cbn [mbind option_bind] in Hr.
  set (sn' := LNode D _ _ _ _ _ true) in Er.
  assert (ext (s_nodes D L) (<[i := sn']> (s_nodes D L))) as He by by eapply ext_insert.
  destruct (relaxes_sound _ _ _ _ _ _ _ sn Er) as (Hp1 & Hg1 & He1); cbn [s_nodes].
  { exists sn'. rewrite list_lookup_insert by by eapply lookup_lt_Some. done. }
  { done. }
  { eapply pinv_insert; [done|exact Hsn|done|]. simpl. intros p Hpp. by apply (Hp i sn p). }
  { by eapply gok_ext. }
  destruct (isgoal (l_st D sn)) eqn:Hgs; [|by eapply IH].
  destruct (push astar_lt (s_open D L1) i) as [q1|]; [|done]. cbn [mbind option_bind] in Hr.
  apply (inj Some) in Hr. injection Hr as <- <- <- <-. cbn [s_nodes]. split; [done|].
  intros b [= <-]. destruct (He i sn Hsn) as (n1 & Hn1 & E1). destruct (He1 i n1 Hn1) as (n2 & Hn2 & E2). exists n2. split; [done|congruence].
Qed.

Lemma expandLss_sound fuel k m st cur m' L' st' goal' :
  expandLss D lim stop fuel k m st cur = Some (m', L', st', goal') → pinv (s_nodes D L') ∧ gok (s_nodes D L') goal'.
Proof.
  unfold expandLss, einit. destruct (push astar_lt _ 0) as [q|]; [|done]. cbn [mbind option_bind]. intros Hr.
  eapply eloop_sound; [exact Hr| |done]. cbn [s_nodes].
  intros i n p [-> <-]%list_lookup_singleton_Some. done.
Qed.

(** The operators found by following the parents. *)
Lemma upward_sound fuel ns cur : ∀ p n r os q,
  pinv ns → ns !! p = Some n → upward D fuel ns cur p q = Some (os, r) →
  ∃ ss c, walk ss (reverse os) c ∧ head ss = Some cur ∧ last ss = Some (l_st D n) ∧
    (os = [] → r = q) ∧
    (os ≠ [] → ∃ o ri rn, last os = Some o ∧ r = Some ri ∧ ns !! ri = Some rn ∧ o ∈ ops cur ∧ dest cur o = l_st D rn).
Proof.
  induction fuel as [|fuel IH]; intros p n r os q Hp Hn Hu; [done|]. cbn [upward] in Hu. rewrite Hn in Hu.
  cbn [mbind option_bind] in Hu. case_decide as Hs.
  { apply (inj Some) in Hu. injection Hu as <- <-. exists [cur], 0. rewrite reverse_nil. split_and!; [constructor|done|by rewrite Hs|done|done]. }
  destruct (l_par D n) as [par|] eqn:Hpar; [|done]. cbn [mbind option_bind] in Hu.
  destruct (upward D fuel ns cur par (Some p)) as [[os' r']|] eqn:Eu; [|done]. cbn [mbind option_bind] in Hu.
  apply (inj Some) in Hu. injection Hu as <- <-.
  destruct (Hp p n par Hn Hpar) as (pn & Hpn & Ho & Hd).
  destruct (IH par pn r' os' (Some p) Hp Hpn Eu) as (ss & c & Hw & Hh & Hl & H0 & H1).
  exists (ss ++ [l_st D n]), (c + cost (l_st D pn) (l_op D n)). rewrite reverse_cons.
  split_and!.
  - rewrite <-Hd. by apply walk_snoc.
  - by destruct ss.
  - by rewrite last_snoc.
  - done.
  - intros _. destruct os' as [|o' os'].
    + exists (l_op D n), p, n. rewrite (H0 eq_refl). split_and!; [done..| |].
      * rewrite reverse_nil in Hw. inversion Hw; subst. simpl in *. by simplify_eq.
      * rewrite reverse_nil in Hw. inversion Hw; subst. simpl in *. by simplify_eq.
    + destruct (H1 ltac:(done)) as (o & ri & rn & ? & ?). exists o, ri, rn. split; [|done]. by rewrite last_cons_cons.
Qed.

Lemma bestopen_in ns q cur es : ∀ best b, bestopen D ns q cur es best = Some (Some b) →
  best = Some b ∨ ∃ n, ns !! b = Some n.
Proof.
  induction es as [|e es IH]; intros best b Hb; cbn [bestopen] in Hb; [apply (inj Some) in Hb; auto|].
  destruct (ns !! e) as [n|] eqn:Hn; [|done]. cbn [mbind option_bind] in Hb. case_decide; [by apply IH|].
  destruct (IH _ _ Hb) as [Hb'|?]; [|auto]. destruct best as [b'|]; [|simplify_eq; eauto].
  destruct (BinHeap.Model.pred _ _ _ _); simplify_eq; eauto.
Qed.

Lemma move_sound L cur goal os s' :
  pinv (s_nodes D L) → gok (s_nodes D L) goal → move D onestep L cur goal = Some (os, s') →
  ∃ ss c, walk ss os c ∧ head ss = Some cur ∧ last ss = Some s' ∧ os ≠ [] ∧
    (onestep = false → is_Some goal → isgoal s' = true) ∧ (onestep = true → length os = 1%nat).
Proof.
  intros Hp Hg Hm. unfold move in Hm.
  destruct (match goal with Some b => Some (Some b) | None => _ end) as [[b|]|] eqn:Hb; [|done..].
  cbn [mbind option_bind] in Hm. destruct (s_nodes D L !! b) as [bn|] eqn:Hbn; [|done]. cbn [mbind option_bind] in Hm.
  case_decide as Hne; [done|].
  destruct (upward D _ _ cur b None) as [[us r]|] eqn:Hu; [|done]. cbn [mbind option_bind] in Hm.
  destruct (upward_sound _ _ _ _ _ _ _ _ Hp Hbn Hu) as (ss & c & Hw & Hh & Hl & H0 & H1).
  assert (us ≠ []) as Hus.
  { intros ->. rewrite reverse_nil in Hw. inversion Hw; subst. simpl in *. by simplify_eq. }
  destruct onestep.
  - destruct (H1 Hus) as (o & ri & rn & Ho & Hr & Hrn & Hoo & Hd). rewrite Ho in Hm. cbn [mbind option_bind] in Hm.
    rewrite Hr in Hm. cbn [mbind option_bind] in Hm. rewrite Hrn in Hm. cbn [mbind option_bind] in Hm.
    apply (inj Some) in Hm. injection Hm as <- <-. exists [cur; l_st D rn], (cost cur o + 0).
    rewrite <-Hd. split_and!; try done. apply walk_step; [done|constructor].
  - apply (inj Some) in Hm. injection Hm as <- <-. exists ss, c. split_and!; try done.
    + intros E. apply (f_equal reverse) in E. by rewrite reverse_involutive in E.
    + intros _ [b' ->]. simplify_eq. destruct (Hg b eq_refl) as (n & Hn & ?). by simplify_eq.
Qed.

Lemma sloop_sound s0 fuel efuel : ∀ k cur os m st ss c m' st' cur' os',
  walk ss os c → head ss = Some s0 → last ss = Some cur →
  sloop D h wt onestep lim stop fuel efuel k cur os m st = Some (m', st', cur', os') →
  ∃ ss' c', walk ss' os' c' ∧ head ss' = Some s0 ∧ last ss' = Some cur'.
Proof.
  induction fuel as [|fuel IH]; intros k cur os m st ss c m' st' cur' os' Hw Hh Hl Hr; [done|]. cbn [sloop] in Hr.
  destruct (isgoal cur). { apply (inj Some) in Hr. injection Hr as <- <- <- <-. eauto. }
  destruct (rreached lim st). { apply (inj Some) in Hr. injection Hr as <- <- <- <-. eauto. }
  destruct (expandLss D lim stop efuel k m (rcalled st) cur) as [[[[m1 L] st1] goal]|] eqn:Ee; [|done]. cbn [mbind option_bind] in Hr.
  destruct (rreached lim st1). { apply (inj Some) in Hr. injection Hr as <- <- <- <-. eauto. }
  destruct (match goal with Some _ => Some m1 | None => _ end) as [m2|]; [|done]. cbn [mbind option_bind] in Hr.
  destruct (move D onestep L cur goal) as [[os1 cur1]|] eqn:Em; [|done]. cbn [mbind option_bind] in Hr.
  destruct (expandLss_sound _ _ _ _ _ _ _ _ _ Ee) as [Hp Hg].
  destruct (move_sound _ _ _ _ _ Hp Hg Em) as (ss1 & c1 & Hw1 & Hh1 & Hl1 & _).
  destruct ss1 as [|? ss1]; [done|]. injection Hh1 as ->.
  eapply (IH _ _ _ _ _ (ss ++ ss1) (c + c1)); [| | |exact Hr].
  - by eapply walk_app.
  - by destruct ss.
  - rewrite last_app. rewrite last_cons in Hl1. destruct (last ss1); [done|]. by rewrite Hl.
Qed.

(** A goal is on the path exactly if the last state is one. *)
Lemma rebuild_walk s os ss k : walk ss os k → head ss = Some s → rebuild D s os = ss.
Proof.
  intros Hw. revert s. induction Hw as [s1|s1 o ss os k Ho Hw IH]; intros s [= ->]; [done|].
  cbn [rebuild]. f_equal. by apply IH.
Qed.
End sound.

(** ** Consistent values: the search makes progress *)
Section live.
Context (D : domain) (OK : domain_ok D) (lim : limits) (stop : nat → nat → bool).
Notation mem := (mem D).
Notation lnode := (lnode D).
Notation lss := (lss D).
Implicit Types (ns : list lnode) (m : mem).

Lemma einv_rc v root (rc rc' : Prop) m L goal cur dn :
  einv D v root rc m L goal cur dn → (rc' → ∃ n, s_nodes D L !! 0%nat = Some n ∧ l_cl D n = true) →
  einv D v root rc' m L goal cur dn.
Proof. intros [] H. split; done. Qed.

Lemma einit_spec v root m :
  mem_ok m → (∀ s, m_h D m s = v s) → isgoal root = false →
  ∃ L, einit D m root = Some L ∧ einv D v root False m L None None [] ∧ arr (s_open D L) = [0%nat] ∧ s_ncl D L = 0%nat.
Proof.
  intros Hm Hh Hg. unfold einit.
  assert (BinHeap.Proofs.inv astar_lt (λ _, True) (new (λ _, (0, 0)))) as Hi0.
  { split; [|split|].
    - intros j _ _ a b Ha. done.
    - constructor.
    - intros i e He. done.
    - done. }
  destruct (push_spec astar_lt (sw_asym _ astar_lt_sw) (sw_neg_trans _ astar_lt_sw) (λ _, True)
    (new (λ _, (0, 0))) 0 (m_h D m root, 0) Hi0) as (q & Hq & Hiq & HP & Hkey); [apply not_elem_of_nil|].
  rewrite Hq. cbn [mbind option_bind]. simpl in HP. apply Permutation_singleton_r in HP.
  eexists. split; [done|]. split; [|done].
  assert (HI : ∀ i n, [LNode D root None (Some 0) nop false false] !! i = Some n → i = 0%nat ∧ n = LNode D root None (Some 0) nop false false).
  { by intros i n [-> <-]%list_lookup_singleton_Some. }
  split; simpl.
  - done.
  - done.
  - apply NoDup_singleton.
  - done.
  - intros i. rewrite HP. rewrite elem_of_list_singleton. split.
    + intros ->. eexists. split; [done|done].
    + intros (n & [-> _]%HI & _). done.
  - intros i n g [-> ->]%HI [= <-]. rewrite Hkey. simpl. by rewrite Hh.
  - by intros i n [-> ->]%HI.
  - done.
  - by intros i n [-> ->]%HI.
  - by intros i n o [-> ->]%HI.
  - intros i n [-> ->]%HI. exists []. split; [|simpl; lia]. by eapply line_root.
  - intros i n [-> ->]%HI. by exists 0.
  - by intros i n g j k g' [-> ->]%HI.
  - by intros i n g j k g' [-> ->]%HI.
  - done.
  - done.
  - by intros _ i n [-> ->]%HI.
  - done.
  - eexists. by split_and!.
Qed.

Lemma expandLss_spec v root (U : list (St D)) fuel k m st :
  cons_h D v → mem_ok m → (∀ s, m_h D m s = v s) → isgoal root = false →
  (∀ s, reachable root s → s ∈ U) → (length U < fuel)%nat →
  ∃ m' L' st' goal', expandLss D lim stop fuel k m st root = Some (m', L', st', goal') ∧
    looked D v root (stop k 0%nat = false ∧ rreached lim st = false) m' L' goal'.
Proof.
  intros Hv Hm Hh Hg HU Hf. unfold expandLss.
  destruct (einit_spec v root m Hm Hh Hg) as (L & -> & He & Harr & Hncl). cbn [mbind option_bind].
  destruct fuel as [|fuel]; [lia|]. cbn [eloop].
  destruct (empty (s_open D L)) eqn:Hem; [apply empty_true in Hem; congruence|].
  destruct (stop k 0) eqn:Hst.
  { eexists _, _, _, _. split; [done|]. apply looked_here; [done..|]. eapply einv_rc; [exact He|]. by intros [? _]. }
  destruct (rreached lim st) eqn:Hlim.
  { eexists _, _, _, _. split; [done|]. apply looked_here; [done..|]. eapply einv_rc; [exact He|]. by intros [_ ?]. }
  destruct (estep D OK lim stop v Hv root False m L None (rcalled st) He)
    as (q & i & sn & m' & st' & L' & goal' & Hq & Hsn & Hx & Hr & He' & Hn & _ & n & Hn1 & Hn2 & Hn3); [by rewrite Harr|].
  assert (i = 0%nat) as ->.
  { destruct (pop_spec' astar_lt (s_open D L) astar_lt_sw (ei_heap _ _ _ _ _ _ _ _ _ He)) as (q2 & x & Hq2 & _ & Hx2 & _); [by rewrite Harr|].
    rewrite Hq in Hq2. injection Hq2 as <- <-. rewrite Harr in Hx2. by apply elem_of_list_singleton in Hx2. }
  rewrite Hq. cbn [mbind option_bind]. rewrite Hsn. cbn [mbind option_bind]. rewrite Hx, Hr. cbn [mbind option_bind].
  assert (l_st D sn = root) as Hsr.
  { destruct (ei_root _ _ _ _ _ _ _ _ _ He) as (r & ? & ? & _). congruence. }
  rewrite Hsr, Hg. apply (eloop_spec D OK lim stop v Hv root _ U); [done| |lia].
  eapply einv_rc; [exact He'|]. intros _. by exists n.
Qed.

(** *** Learning, one step *)
Section learned.
Context (h : St D → Z) (v : St D → Z) (root : St D) (rc : Prop) (Hv : cons_h D v).

(** Values of ways out, against values of open nodes. *)
Lemma leaves_open m L goal s k i n g :
  einv D v root rc m L goal None [] →
  leaves D 1 (closed_st (s_nodes D L)) (frontier (s_nodes D L)) v s k →
  s_nodes D L !! i = Some n → l_st D n = s → l_g D n = Some g →
  ∃ j y gy, s_nodes D L !! j = Some y ∧ l_cl D y = false ∧ l_g D y = Some gy ∧ gy + v (l_st D y) ≤ g + k.
Proof.
  intros He Hl. pose proof (ei_nodup _ _ _ _ _ _ _ _ _ He) as Hnd. revert i n g.
  induction Hl as [x (i' & a & Ha & Hc & Hs)|s o k (i' & a & Ha & Hc & Hs) Ho Hl IH]; intros i n g Hn Hns Hg.
  - assert (i' = i) as -> by (eapply nodup_st; [exact Hnd|done..|congruence]). assert (a = n) as -> by congruence.
    exists i, n, g. rewrite Hns. split_and!; [done..|]. lia.
  - assert (i' = i) as -> by (eapply nodup_st; [exact Hnd|done..|congruence]). assert (a = n) as -> by congruence. subst s.
    destruct (ei_succ _ _ _ _ _ _ _ _ _ He i n o Hn Hc Ho) as (j & kn & g1 & g2 & Hj & Hjs & Hg1 & Hg2 & Hle); [by left|].
    destruct (IH j kn g2 Hj Hjs Hg2) as (b & y & gy & ? & ? & ? & ?). exists b, y, gy. split_and!; [done..|]. assert (g = g1) as -> by congruence. lia.
Qed.

(** Values of ways out are not below the old value. *)
Lemma leaves_above wt C O s k : 1 ≤ wt → leaves D wt C O v s k → v s ≤ k.
Proof.
  intros Hwt. induction 1 as [x _|s o k _ Ho _ IH]; [lia|]. pose proof (Hv s o Ho). pose proof (ok_cost OK s o Ho). nia.
Qed.

(** A closed state from which a goal can be reached has a way out. *)
Lemma leaves_exists m L s ss os k :
  einv D v root rc m L None None [] → closed_st (s_nodes D L) s → solution s ss os k →
  ∃ w, leaves D 1 (closed_st (s_nodes D L)) (frontier (s_nodes D L)) v s w.
Proof.
  intros He Hc (Hw & Hh & t & Hl & Ht). revert s Hc Hh Hl.
  induction Hw as [s1|s1 o ss os k Ho Hw IH]; intros s Hc Hh Hl; simpl in Hh; injection Hh as <-.
  - injection Hl as ->. destruct Hc as (i & n & Hn & _ & <-). rewrite (ei_nogoal _ _ _ _ _ _ _ _ _ He eq_refl i n Hn) in Ht. done.
  - destruct (lo_succ _ _ (einv_lss_ok _ OK lim stop _ Hv _ _ _ _ _ He) _ _ Hc Ho) as [Hc'|Hf'].
    + destruct (IH _ Hc' eq_refl Hl) as [w Hw']. eexists. by apply leaves_step.
    + eexists. apply leaves_step; [done|done|]. by apply leaves_here.
Qed.
End learned.

(** *** Moving *)
Lemma line_f v root rc m L goal cur dn i n g : cons_h D v →
  einv D v root rc m L goal cur dn → s_nodes D L !! i = Some n → l_g D n = Some g → v root ≤ g + v (l_st D n).
Proof.
  intros Hv He Hn Hg. destruct (ei_line _ _ _ _ _ _ _ _ _ He i n Hn) as (os & Hl & _). revert n g Hn Hg.
  induction Hl as [a Ha Hs Hga Hp|i a p pn g' os Ha Hs Hp Hpn Hcp Ho Hd Hgp Hga Hl IH]; intros n g Hn Hg.
  - simplify_eq. lia.
  - assert (a = n) as -> by congruence. pose proof (IH pn g' Hpn Hgp). pose proof (Hv _ _ Ho) as H1. rewrite Hd in H1.
    rewrite Hga in Hg. injection Hg as <-. lia.
Qed.

Lemma upward_line v root ns i os : cons_h D v → NoDup (l_st D <$> ns) →
  line D root ns i os → ∀ fuel q n g, (length os < fuel)%nat → ns !! i = Some n → l_g D n = Some g →
  ∃ r, upward D fuel ns root i q = Some (os, r) ∧ (os = [] → r = q ∧ l_st D n = root) ∧
    (os ≠ [] → ∃ o ri rn gr, last os = Some o ∧ r = Some ri ∧ ns !! ri = Some rn ∧ l_g D rn = Some gr ∧
      gr + v (l_st D rn) ≤ g + v (l_st D n) ∧ o ∈ ops root ∧ gr = cost root o).
Proof.
  intros Hv Hnd Hl. induction Hl as [a Ha Hs Hga Hp|i a p pn g' os Ha Hs Hp Hpn Hcp Ho Hd Hgp Hga Hl IH]; intros fuel q n g Hf Hn Hg;
    (destruct fuel as [|fuel]; [simpl in Hf; lia|]); cbn [upward]; rewrite Hn; cbn [mbind option_bind].
  - simplify_eq. rewrite decide_True by done. exists q. by split_and!.
  - assert (a = n) as -> by congruence. rewrite decide_False by done. rewrite Hp. cbn [mbind option_bind].
    destruct (IH fuel (Some i) pn g') as (r & Hu & H0 & H1); [simpl in Hf; lia|done..|]. rewrite Hu. cbn [mbind option_bind].
    exists r. split; [done|]. split; [done|]. intros _. rewrite Hga in Hg. injection Hg as <-.
    pose proof (Hv _ _ Ho) as Hcons. rewrite Hd in Hcons.
    destruct os as [|o' os].
    + destruct (H0 eq_refl) as [-> Hpr]. exists (l_op D n), i, n, (g' + cost (l_st D pn) (l_op D n)).
      assert (g' = 0) as ->.
      { inversion Hl as [a' Ha' ? Hga'|]; subst. simplify_eq. done. }
      rewrite Hpr in *. split_and!; try done; lia.
    + destruct (H1 ltac:(done)) as (o & ri & rn & gr & Hlo & ? & ? & ? & ? & ? & ?).
      exists o, ri, rn, gr. rewrite last_cons_cons. split_and!; try done. lia.
Qed.

Lemma bestopen_spec ns (q : heap (Z * Z)) cur es : ∀ best,
  (∀ e, e ∈ es → is_Some (ns !! e)) → (∀ b, best = Some b → ∃ n, ns !! b = Some n ∧ l_st D n ≠ cur) →
  ∃ r, bestopen D ns q cur es best = Some r ∧
    (∀ e n, e ∈ es → ns !! e = Some n → l_st D n ≠ cur → ∃ b, r = Some b ∧ astar_lt (key q e) (key q b) = false) ∧
    (∀ b, best = Some b → ∃ b', r = Some b' ∧ astar_lt (key q b) (key q b') = false) ∧
    (∀ b, r = Some b → (b ∈ es ∨ best = Some b) ∧ ∃ n, ns !! b = Some n ∧ l_st D n ≠ cur).
Proof.
  induction es as [|e es IH]; intros best Hes Hb; cbn [bestopen].
  { exists best. split; [done|]. split; [by intros e n ?%elem_of_nil|]. split; [|by auto].
    intros b ->. exists b. split; [done|]. apply (sw_irrefl _ astar_lt_sw). }
  destruct (Hes e (elem_of_list_here _ _)) as [n Hn]. rewrite Hn. cbn [mbind option_bind].
  case_decide as Hs.
  { destruct (IH best) as (r & Hr & H1 & H2 & H3); [intros e' He'; apply Hes; by right|done|].
    exists r. split_and!; [done| |done|].
    - intros e' n' [->|He']%elem_of_cons Hn' Hs'; [congruence|by eapply H1].
    - intros b Hb'. destruct (H3 b Hb') as [[?|?] ?]; split; auto. left. by right. }
  set (best' := match best with None => Some e | Some b => if BinHeap.Model.pred astar_lt q e b then Some e else Some b end).
  assert (Hb' : ∀ b, best' = Some b → ∃ n0, ns !! b = Some n0 ∧ l_st D n0 ≠ cur).
  { intros b E. unfold best' in E. destruct best as [b0|]; [destruct (BinHeap.Model.pred _ _ _ _)|]; simplify_eq; [by exists n|by apply Hb|by exists n]. }
  destruct (IH best') as (r & Hr & H1 & H2 & H3); [intros e' He'; apply Hes; by right|done|].
  exists r. split; [done|].
  assert (Hbe : ∃ b', best' = Some b' ∧ astar_lt (key q e) (key q b') = false ∧ (∀ b, best = Some b → astar_lt (key q b) (key q b') = false)).
  { unfold best'. destruct best as [b|].
    - unfold BinHeap.Model.pred. destruct (astar_lt (key q e) (key q b)) eqn:E.
      + exists e. split_and!; [done|apply (sw_irrefl _ astar_lt_sw)|]. intros ? [= <-]. by apply (sw_asym _ astar_lt_sw).
      + exists b. split_and!; [done..|]. intros ? [= <-]. apply (sw_irrefl _ astar_lt_sw).
    - exists e. split_and!; [done|apply (sw_irrefl _ astar_lt_sw)|done]. }
  destruct Hbe as (b' & Hb'' & Hlt & Hltb). destruct (H2 b' Hb'') as (b2 & Hr2 & Hlt2).
  split_and!.
  - intros e' n' [->|He']%elem_of_cons Hn' Hs'; [|by eapply H1]. exists b2. split; [done|].
    eapply (sw_neg_trans _ astar_lt_sw); [exact Hlt2|exact Hlt].
  - intros b Hbb. exists b2. split; [done|]. eapply (sw_neg_trans _ astar_lt_sw); [exact Hlt2|by apply Hltb].
  - intros b Hbb. destruct (H3 b Hbb) as [[?|Hb3] Hn3]; split; auto; [left; by right|].
    unfold best' in Hb3. destruct best as [b0|]; [destruct (BinHeap.Model.pred _ _ _ _)|]; simplify_eq; [left; by left|by right|left; by left].
Qed.

(** The move after a lookahead that found no goal: to the best node of the open list, or one step towards it. *)
Lemma move_spec v root onestep m L :
  cons_h D v → einv D v root True m L None None [] → arr (s_open D L) ≠ [] →
  ∃ os s' g, move D onestep L root None = Some (os, s') ∧ reachable root s' ∧
    (∀ j y gy, s_nodes D L !! j = Some y → l_cl D y = false → l_g D y = Some gy → g + v s' ≤ gy + v (l_st D y)) ∧
    ((∀ (s : St D) o, o ∈ ops s → 0 < cost s o) → 0 < g).
Proof.
  intros Hv He Hne. unfold move.
  pose proof (ei_nodup _ _ _ _ _ _ _ _ _ He) as Hnd.
  destruct (ei_rc _ _ _ _ _ _ _ _ _ He I) as (r0 & Hr0 & Hrc). destruct (ei_root _ _ _ _ _ _ _ _ _ He) as (r1 & Hr1 & Hrs & Hrg & _).
  assert (r1 = r0) as -> by congruence.
  assert (Hnotroot : ∀ e, e ∈ arr (s_open D L) → ∃ n, s_nodes D L !! e = Some n ∧ l_st D n ≠ root ∧ l_cl D n = false).
  { intros e (n & Hn & Hc)%(ei_open _ _ _ _ _ _ _ _ _ He). exists n. split_and!; [done| |done]. intros Hs.
    assert (e = 0%nat) as -> by (eapply nodup_st; [exact Hnd|done..|congruence]). congruence. }
  destruct (bestopen_spec (s_nodes D L) (s_open D L) root (arr (s_open D L)) None) as (r & Hr & H1 & _ & H3).
  { intros e He'. destruct (Hnotroot e He') as (n & Hn & _). eauto. }
  { done. }
  rewrite Hr. cbn [mbind option_bind].
  destruct (arr (s_open D L)) as [|e0 l] eqn:Harr; [done|]. rewrite <-Harr in *.
  assert (e0 ∈ arr (s_open D L)) as He0 by (rewrite Harr; left).
  destruct (Hnotroot e0 He0) as (n0 & Hn0 & Hs0 & _). destruct (H1 e0 n0 He0 Hn0 Hs0) as (b & -> & _). cbn [mbind option_bind].
  destruct (H3 b eq_refl) as ([Hb|?] & bn & Hbn & Hbs); [|done].
  rewrite Hbn. cbn [mbind option_bind]. rewrite decide_False by done.
  destruct (ei_line _ _ _ _ _ _ _ _ _ He b bn Hbn) as (os & Hl & Hlen).
  destruct (ei_g _ _ _ _ _ _ _ _ _ He b bn Hbn) as (gb & Hgb & _).
  assert (length os < S (length (s_nodes D L)))%nat as Hf.
  { rewrite (ei_ncl _ _ _ _ _ _ _ _ _ He) in Hlen. pose proof (filter_length (λ n, l_cl D n = true) (s_nodes D L)). lia. }
  destruct (upward_line v root (s_nodes D L) b os Hv Hnd Hl _ None bn gb Hf Hbn Hgb) as (r & Hu & Hu0 & Hu1).
  rewrite Hu. cbn [mbind option_bind].
  assert (os ≠ []) as Hos. { intros E. by destruct (Hu0 E). }
  assert (Hmin : ∀ j y gy, s_nodes D L !! j = Some y → l_cl D y = false → l_g D y = Some gy → gb + v (l_st D bn) ≤ gy + v (l_st D y)).
  { intros j y gy Hj Hc Hgy. assert (j ∈ arr (s_open D L)) as Hin by (apply (ei_open _ _ _ _ _ _ _ _ _ He); by exists y).
    destruct (Hnotroot j Hin) as (y' & Hy' & Hys & _). simplify_eq.
    destruct (H1 j y Hin Hj Hys) as (b' & [= <-] & Hlt).
    rewrite (ei_key _ _ _ _ _ _ _ _ _ He j y gy Hj Hgy), (ei_key _ _ _ _ _ _ _ _ _ He b bn gb Hbn Hgb) in Hlt.
    apply astar_lt_false in Hlt. lia. }
  destruct (Hu1 Hos) as (o & ri & rn & gr & Hlo & Hri & Hrn & Hgr & Hfr & Ho & Hgc).
  destruct onestep.
  - rewrite Hlo. cbn [mbind option_bind]. rewrite Hri. cbn [mbind option_bind]. rewrite Hrn. cbn [mbind option_bind].
    exists [o], (l_st D rn), gr. split_and!; [done|by eapply (einv_reach D OK lim stop v Hv)| |].
    + intros j y gy Hj Hc Hgy. specialize (Hmin j y gy Hj Hc Hgy). lia.
    + intros Hpos. rewrite Hgc. by apply Hpos.
  - exists (reverse os), (l_st D bn), gb. split_and!; [done|by eapply (einv_reach D OK lim stop v Hv)|done|].
    intros Hpos. destruct (line_walk D OK lim stop v Hv root _ _ _ _ _ _ _ _ _ He Hl Hbn) as (ss & g' & Hw & _ & _ & Hg').
    simplify_eq. assert (∀ ss us k, walk (D:=D) ss us k → us ≠ [] → 0 < k) as Hwp.
    { clear -Hpos OK. intros ss us k Hw. destruct Hw as [|s o ss us k Ho Hw]; [done|]. intros _.
      pose proof (Hpos s o Ho). pose proof (walk_nonneg D _ _ _ OK Hw). lia. }
    eapply Hwp; [exact Hw|]. intros E. apply (f_equal reverse) in E. rewrite reverse_involutive in E. by rewrite E in Hos.
Qed.
End live.
