(** Attribute lists of the results database: C67 and C85. *)
From stdpp Require Import prelude gmap.
From Coq Require Import ZArith Lia.
From Verif Require Import Text.Model Rdb.Model.
Local Open Scope Z_scope.

(** ** Specification *)

(** An attribute list is a list of key and value pairs. *)
Notation alist := (list (str * str)).

Inductive aop := PushBack (k v : str) | PushFront (k v : str) | PopFront | Rm (k : str).
(** What each operation does, and what it returns; taking from an empty list is not allowed. *)
Definition spec_step (al : alist) (o : aop) : option (bool * alist) :=
  match o with
  | PushBack k v => Some (if decide (k ∈ al.*1) then (false, al) else (true, al ++ [(k, v)]))
  | PushFront k v => Some (if decide (k ∈ al.*1) then (false, al) else (true, (k, v) :: al))
  | PopFront => match al with [] => None | _ :: al => Some (true, al) end
  | Rm k => Some (if decide (k ∈ al.*1) then (true, filter (λ p, p.1 ≠ k) al) else (false, al))
  end.
Definition step (a : rattrs) (o : aop) : option (bool * rattrs) :=
  match o with
  | PushBack k v => Some (push_back a k v)
  | PushFront k v => Some (push_front a k v)
  | PopFront => match pop_front a with Some a => Some (true, a) | None => None end
  | Rm k => Some (rm a k)
  end.
Fixpoint run {A} (f : A → aop → option (bool * A)) (a : A) (os : list aop) : option (list bool * A) :=
  match os with
  | [] => Some ([], a)
  | o :: os => match f a o with
               | Some (b, a) => match run f a os with Some (bs, a) => Some (b :: bs, a) | None => None end
               | None => None
               end
  end.

(** "k1=v1 k2=v2 ..." *)
Fixpoint show (al : alist) : str :=
  match al with
  | [] => []
  | [(k, v)] => k ++ [eqsign] ++ v
  | (k, v) :: al => k ++ [eqsign] ++ v ++ [blank] ++ show al
  end.

(** Everything that can be asked of an attribute list agrees with the list of pairs. *)
Record answers (a : rattrs) (al : alist) : Prop := {
  an_distinct : NoDup al.*1;
  an_size : size a = length al;
  an_front : front a = fst <$> head al;
  an_mem k : mem a k = bool_decide (k ∈ al.*1);
  an_lookup k v : (k, v) ∈ al → lookup a k = (v, a);
  an_keys : keys a = al.*1;
  an_string : string a = Some (show al);
}.

(** ** Proofs *)
Definition rep (a : rattrs) (al : alist) : Prop := keys a = al.*1 ∧ pairs a = list_to_map al ∧ NoDup al.*1.

Lemma rep_mem a al k : rep a al → mem a k = bool_decide (k ∈ al.*1).
Proof.
  intros (_ & Hp & _). unfold mem. apply bool_decide_ext. rewrite Hp. split.
  - intros [v Hv%elem_of_list_to_map_2]. by apply elem_of_list_fmap_1 with (f := fst) in Hv.
  - intros Hk. destruct (list_to_map al !! k) eqn:E; [by eexists|]. by apply not_elem_of_list_to_map in E.
Qed.
Lemma rep_lookup a al k v : rep a al → (k, v) ∈ al → pairs a !! k = Some v.
Proof. intros (_ & -> & Hnd) Hin. by apply elem_of_list_to_map. Qed.
Lemma rep_none a al k : rep a al → k ∉ al.*1 → pairs a !! k = None.
Proof. intros (_ & -> & _) Hk. by apply not_elem_of_list_to_map. Qed.

Lemma erase_fst (al : alist) k : NoDup al.*1 → erase k al.*1 = (filter (λ p, p.1 ≠ k) al).*1.
Proof.
  induction al as [|[k' v] al IH]; [done|]. cbn [fmap list_fmap fst]. intros [Hni Hnd]%NoDup_cons. cbn [erase].
  rewrite filter_cons. cbn [fst]. destruct (decide (k' ≠ k)) as [Hne|Heq].
  - rewrite bool_decide_false by done. cbn [fmap list_fmap fst]. f_equal. by apply IH.
  - apply dec_stable in Heq as ->. rewrite bool_decide_true by done. symmetry.
    clear IH Hnd. f_equal. induction al as [|[k1 v1] al IH]; [done|]. cbn in Hni. apply not_elem_of_cons in Hni as [H1 H2].
    rewrite filter_cons_True by (cbn; congruence). f_equal. by apply IH.
Qed.
Lemma filter_fst_NoDup (al : alist) k : NoDup al.*1 → NoDup (filter (λ p : str * str, p.1 ≠ k) al).*1.
Proof.
  induction al as [|[k' v] al IH]; [done|]. cbn [fmap list_fmap fst]. intros [Hni Hnd]%NoDup_cons. rewrite filter_cons. cbn [fst].
  destruct (decide (k' ≠ k)); [|by apply IH]. cbn [fmap list_fmap fst]. apply NoDup_cons. split; [|by apply IH].
  intros (p & -> & [_ Hp]%elem_of_list_filter)%elem_of_list_fmap. apply Hni. by apply elem_of_list_fmap_1.
Qed.
Lemma filter_to_map (al : alist) k : delete k (list_to_map al : gmap str str) = list_to_map (filter (λ p, p.1 ≠ k) al).
Proof.
  induction al as [|[k' v] al IH]; [apply delete_empty|]. cbn [list_to_map fst snd]. rewrite filter_cons. cbn [fst].
  destruct (decide (k' ≠ k)) as [Hne|Heq].
  - cbn. rewrite delete_insert_ne by done. by rewrite IH.
  - apply dec_stable in Heq as ->. cbn. by rewrite delete_insert_delete.
Qed.

Lemma rep_push_back a al k v : rep a al → k ∉ al.*1 → rep (push_back a k v).2 (al ++ [(k, v)]) ∧ (push_back a k v).1 = true.
Proof.
  intros Hr Hk. unfold push_back. rewrite (rep_mem _ _ _ Hr), bool_decide_false by done. destruct Hr as (H1 & H2 & H3). cbn [fst snd]. split; [|done].
  assert (NoDup (al ++ [(k, v)]).*1) as Hnd.
  { rewrite fmap_app. cbn. apply NoDup_app. split_and!; [done| |apply NoDup_singleton]. by intros x Hx ->%elem_of_list_singleton. }
  split_and!; cbn [keys pairs]; [by rewrite H1, fmap_app| |done].
  rewrite H2. rewrite (list_to_map_proper (al ++ [(k, v)]) ((k, v) :: al)); [done|done|]. by rewrite Permutation_app_comm.
Qed.
Lemma rep_push_front a al k v : rep a al → k ∉ al.*1 → rep (push_front a k v).2 ((k, v) :: al) ∧ (push_front a k v).1 = true.
Proof.
  intros Hr Hk. unfold push_front. rewrite (rep_mem _ _ _ Hr), bool_decide_false by done. destruct Hr as (H1 & H2 & H3). cbn [fst snd]. split; [|done].
  split_and!; cbn [keys pairs]; [by rewrite H1|by rewrite H2|]. cbn. by constructor.
Qed.
Lemma rep_rm a al k : rep a al → k ∈ al.*1 → rm a k = (true, (rm a k).2) ∧ rep (rm a k).2 (filter (λ p, p.1 ≠ k) al).
Proof.
  intros Hr Hk. unfold rm. rewrite (rep_mem _ _ _ Hr), bool_decide_true by done. destruct Hr as (H1 & H2 & H3). cbn [snd]. split; [done|].
  split_and!; cbn [keys pairs]; [rewrite H1; by apply erase_fst|rewrite H2; by apply filter_to_map|by apply filter_fst_NoDup].
Qed.
Lemma rep_pop a p al : rep a (p :: al) → ∃ a', pop_front a = Some a' ∧ rep a' al.
Proof.
  intros Hr. pose proof (rep_mem _ _ p.1 Hr) as Hm. rewrite bool_decide_true in Hm by (cbn; left).
  destruct Hr as (H1 & H2 & H3). unfold pop_front. rewrite H1. cbn [fmap list_fmap]. rewrite Hm. eexists. split; [done|].
  cbn in H3. apply NoDup_cons in H3 as [H3 H4]. destruct p as [k v]. cbn [fst] in *.
  split_and!; cbn [keys pairs]; [done| |done]. rewrite H2. cbn. rewrite delete_insert; [done|]. by apply not_elem_of_list_to_map.
Qed.
Lemma rep_empty : rep noattrs [].
Proof. split_and!; [done|done|constructor]. Qed.

Lemma stringloop_show m r al : (∀ k v, (k, v) ∈ al → m !! k = Some v) →
  stringloop m r al.*1 = Some (if decide (r = []) then show al else if decide (al = []) then r else r ++ [blank] ++ show al).
Proof.
  revert r. induction al as [|[k v] al IH]; intros r Hm.
  - cbn. destruct (decide (r = [])) as [->|]; done.
  - cbn [fmap list_fmap fst stringloop]. rewrite (Hm k v) by left. cbn [mbind option_bind].
    rewrite IH by (intros; apply Hm; by right).
    rewrite (decide_False (P := _ ++ k ++ _ = [])).
    2:{ intros [_ [_ E]%app_eq_nil]%app_eq_nil. by apply app_eq_nil in E as [? _]. }
    f_equal. rewrite (decide_False (P := (k, v) :: al = [])) by done.
    destruct (decide (r = [])) as [->|Hr]; [rewrite bool_decide_true by done|rewrite bool_decide_false by done].
    + cbn [app]. destruct (decide (al = [])) as [->|Hne]; [done|]. destruct al as [|p al]; [done|]. cbn [show]. by rewrite <-!app_assoc.
    + destruct (decide (al = [])) as [->|Hne]; [by rewrite <-!app_assoc|]. destruct al as [|p al]; [done|]. cbn [show]. by rewrite <-!app_assoc.
Qed.

Lemma rep_answers a al : rep a al → answers a al.
Proof.
  intros Hr. pose proof Hr as (H1 & H2 & H3). split.
  - done.
  - unfold size. by rewrite H1, fmap_length.
  - unfold front. rewrite H1. by destruct al.
  - intros k. by apply rep_mem.
  - intros k v Hin. unfold lookup. by rewrite (rep_lookup _ _ _ _ Hr Hin).
  - done.
  - unfold string. rewrite H1. rewrite stringloop_show; [done|]. intros k v Hin. by eapply rep_lookup.
Qed.

Lemma step_rep a al o : rep a al →
  match spec_step al o with
  | Some (b, al') => ∃ a', step a o = Some (b, a') ∧ rep a' al'
  | None => step a o = None
  end.
Proof.
  intros Hr. destruct o as [k v|k v| |k]; cbn [spec_step step].
  - destruct (decide (k ∈ al.*1)) as [Hk|Hk].
    + exists a. unfold push_back. rewrite (rep_mem _ _ _ Hr), bool_decide_true by done. done.
    + destruct (rep_push_back a al k v Hr Hk) as [H1 H2]. exists (push_back a k v).2. split; [|done].
      destruct (push_back a k v); cbn in *; congruence.
  - destruct (decide (k ∈ al.*1)) as [Hk|Hk].
    + exists a. unfold push_front. rewrite (rep_mem _ _ _ Hr), bool_decide_true by done. done.
    + destruct (rep_push_front a al k v Hr Hk) as [H1 H2]. exists (push_front a k v).2. split; [|done].
      destruct (push_front a k v); cbn in *; congruence.
  - destruct al as [|p al].
    + unfold pop_front. destruct Hr as (-> & _). done.
    + destruct (rep_pop _ _ _ Hr) as (a' & -> & H). eauto.
  - destruct (decide (k ∈ al.*1)) as [Hk|Hk].
    + destruct (rep_rm _ _ _ Hr Hk) as [E H]. rewrite E. eauto.
    + exists a. unfold rm. rewrite (rep_mem _ _ _ Hr), bool_decide_false by done. done.
Qed.

(** After any sequence of operations on a new attribute list, the results and all answers are those of a list of
    pairs with distinct keys in which insertions at either end are refused if the key is there. *)
Theorem C67_attribute_list os :
  match run spec_step [] os with
  | Some (bs, al) => ∃ a, run step noattrs os = Some (bs, a) ∧ answers a al
  | None => run step noattrs os = None
  end.
Proof.
  assert (∀ a al, rep a al → match run spec_step al os with
    | Some (bs, al') => ∃ a', run step a os = Some (bs, a') ∧ answers a' al'
    | None => run step a os = None end) as H; [|apply H, rep_empty].
  induction os as [|o os IH]; intros a al Hr; cbn [run].
  - exists a. split; [done|]. by apply rep_answers.
  - pose proof (step_rep a al o Hr) as Hs. destruct (spec_step al o) as [[b al']|].
    + destruct Hs as (a' & -> & Hr'). specialize (IH a' al' Hr'). destruct (run spec_step al' os) as [[bs al'']|].
      * destruct IH as (a'' & -> & Ha). eauto.
      * by rewrite IH.
    + by rewrite Hs.
Qed.
(** "a=1 b=2", then b=3 refused, c=4 in front, a removed. *)
Example attrs_example : ∃ a, run step noattrs [PushBack [97] [49]; PushBack [98] [50]; PushBack [98] [51]; PushFront [99] [52]; Rm [97]] =
  Some ([true; true; false; true; true], a) ∧ string a = Some [99; 61; 52; 32; 98; 61; 50].
Proof. eexists. split; [vm_compute; reflexivity|]. vm_compute. reflexivity. Qed.

(** Looking up a key that is not there inserts it with an empty value, although the list's size and its keys do not
    show it; from then on it cannot be added. *)
Theorem C67_lookup_missing_refuted a al k v : answers a al → k ∉ al.*1 →
  ∃ a', lookup a k = ([], a') ∧ mem a' k = true ∧ size a' = length al ∧ keys a' = al.*1 ∧ push_back a' k v = (false, a').
Proof.
  intros Ha Hk. pose proof (an_mem _ _ Ha k) as Hm. rewrite bool_decide_false in Hm by done. unfold mem in Hm. apply bool_decide_eq_false in Hm.
  unfold lookup. destruct (pairs a !! k) eqn:E; [by destruct Hm|]. eexists. split; [done|].
  assert (mem (Attrs (<[k:=[]]> (pairs a)) (keys a)) k = true) as Hmem.
  { unfold mem. cbn [pairs]. rewrite lookup_insert. by apply bool_decide_true. }
  split_and!; [done|apply (an_size _ _ Ha)|apply (an_keys _ _ Ha)|]. unfold push_back. by rewrite Hmem.
Qed.

(** ** Command lines *)

(** The words of a key, separated by single spaces. *)
Fixpoint unwords (ws : list str) : str :=
  match ws with [] => [] | [w] => w | w :: ws => w ++ [blank] ++ unwords ws end.
(** The arguments for one attribute, as a shell splits "key words=value". *)
Definition args_of (p : list str * str) : list str :=
  match last p.1 with Some w => take (length p.1 - 1) p.1 ++ [w ++ [eqsign] ++ p.2] | None => [] end.
Definition plain (w : str) : Prop := eqsign ∉ w.

Lemma findeq_none w : plain w → findeq w = None.
Proof.
  unfold plain. induction w as [|c w IH]; [done|]. intros [Hc Hw]%not_elem_of_cons. cbn [findeq].
  rewrite (proj2 (Z.eqb_neq _ _)) by congruence. by rewrite IH.
Qed.
Lemma findeq_eq w v : plain w → findeq (w ++ [eqsign] ++ v) = Some (w, v).
Proof.
  unfold plain. induction w as [|c w IH]; [done|]. intros [Hc Hw]%not_elem_of_cons. cbn [findeq app].
  rewrite (proj2 (Z.eqb_neq _ _)) by congruence. cbn [app] in IH. by rewrite IH.
Qed.
Lemma unwords_snoc ws w : unwords (ws ++ [w]) = concat (map (λ x, x ++ [blank]) ws) ++ w.
Proof.
  induction ws as [|x ws IH]; [done|]. cbn [app map concat]. rewrite <-!app_assoc, <-IH.
  destruct ws as [|y ws]; done.
Qed.
Lemma frontpair_words key ws w v more : Forall plain ws → plain w → w ≠ [] →
  frontpair key (ws ++ [w ++ [eqsign] ++ v] ++ more) = Ok (Some (key ++ unwords (ws ++ [w]), v, more)).
Proof.
  intros Hws Hw Hne. revert key. induction Hws as [|x ws Hx Hws IH]; intros key.
  - cbn [app frontpair]. pose proof (findeq_eq w v Hw) as E. cbn [app] in E. rewrite E. by destruct w.
  - cbn [app frontpair]. rewrite findeq_none by done. cbn [app] in IH. rewrite IH. do 3 f_equal.
    change (x :: ws ++ [w]) with ((x :: ws) ++ [w]). rewrite (unwords_snoc (x :: ws)), unwords_snoc. f_equal. cbn [map concat]. by rewrite <-!app_assoc.
Qed.
Lemma frontpair_rest key ws : Forall plain ws → frontpair key ws = Ok None.
Proof. intros Hws. revert key. induction Hws as [|x ws Hx Hws IH]; intros key; [done|]. cbn [frontpair]. by rewrite findeq_none. Qed.

(** Attributes on the command line: words up to one with '=' make up the key, what follows the '=' is the value (it may
    contain further '=' and spaces); of several values for a key the first counts; words after the last '=' are ignored. *)
Fixpoint firsts (seen : alist) (l : alist) : alist :=
  match l with
  | [] => seen
  | (k, v) :: l => firsts (if decide (k ∈ seen.*1) then seen else seen ++ [(k, v)]) l
  end.
Theorem C85_attrargs (l : list (list str * str)) rest :
  Forall (λ p, Forall plain p.1 ∧ ∃ w, last p.1 = Some w ∧ w ≠ []) l → Forall plain rest →
  ∃ a, attrargs (concat (args_of <$> l) ++ rest) = Ok a ∧ answers a (firsts [] ((λ p, (unwords p.1, p.2)) <$> l)).
Proof.
  intros Hl Hrest. unfold attrargs.
  assert (∀ n a seen, rep a seen → (length (concat (args_of <$> l) ++ rest) ≤ n)%nat →
    ∃ a', attrargsloop n a (concat (args_of <$> l) ++ rest) = Ok a' ∧ answers a' (firsts seen ((λ p, (unwords p.1, p.2)) <$> l))) as H.
  2:{ apply H; [apply rep_empty|done]. }
  induction Hl as [|[ws v] l [Hws (w & Hw & Hne)] Hl IH]; intros n a seen Hr Hn; cbn [fmap list_fmap concat firsts].
  - exists a. split; [|by apply rep_answers]. cbn [app] in *. destruct n as [|n]; [done|]. cbn [attrargsloop].
    destruct rest as [|r rest]; [done|]. by rewrite frontpair_rest.
  - cbn [fst snd] in *. apply last_Some in Hw as [ws' ->]. apply Forall_app in Hws as [Hws Hw]. apply Forall_cons in Hw as [Hw _].
    assert (args_of (ws' ++ [w], v) = ws' ++ [w ++ [eqsign] ++ v]) as Ea.
    { unfold args_of. cbn [fst snd]. rewrite last_snoc, app_length. cbn [length]. rewrite take_app_alt by lia. done. }
    assert (concat (args_of (ws' ++ [w], v) :: (args_of <$> l)) ++ rest = ws' ++ [w ++ [eqsign] ++ v] ++ (concat (args_of <$> l) ++ rest)) as E.
    { cbn [concat]. rewrite Ea. by rewrite <-!app_assoc. }
    cbn [fmap list_fmap concat] in Hn, E. rewrite E in *. clear E.
    assert (∃ x xs, ws' ++ [w ++ [eqsign] ++ v] ++ concat (args_of <$> l) ++ rest = x :: xs) as (x & xs & Ex).
    { destruct ws'; by eexists _, _. }
    destruct n as [|n]; [rewrite Ex in Hn; cbn in Hn; lia|]. cbn [attrargsloop]. rewrite Ex, <-Ex. clear x xs Ex.
    rewrite frontpair_words by done. cbn [app fst snd].
    assert (length (concat (args_of <$> l) ++ rest) ≤ n)%nat as Hn'. { rewrite app_length in Hn. cbn [app length] in Hn. lia. }
    destruct (decide (unwords (ws' ++ [w]) ∈ seen.*1)) as [Hin|Hin].
    + apply IH; [|done]. unfold push_back. rewrite (rep_mem _ _ _ Hr), bool_decide_true by done. done.
    + apply IH; [|done]. by apply rep_push_back.
Qed.
(** num disks=3 "cost=a=b" num disks=4 x *)
Example attrargs_example : ∃ a, attrargs [[110]; [100; 61; 51]; [99; 61; 97; 61; 98]; [110]; [100; 61; 52]; [120]] = Ok a ∧
  string a = Some [110; 32; 100; 61; 51; 32; 99; 61; 97; 61; 98].
Proof. eexists. split; [vm_compute; reflexivity|]. vm_compute. reflexivity. Qed.

(** The value may be an argument of its own: key words, then "=value". *)
Theorem C85_separate_value ws v : ws ≠ [] → Forall plain ws → ∃ a, attrargs (ws ++ [eqsign :: v]) = Ok a ∧ answers a [(unwords ws, v)].
Proof.
  intros Hne Hws. exists (push_back noattrs (unwords ws) v).2.
  assert (∀ key ws, Forall plain ws → last (key ++ concat (map (λ x, x ++ [blank]) ws)) = Some blank →
    frontpair key (ws ++ [eqsign :: v]) = Ok (Some (take (length (key ++ concat (map (λ x, x ++ [blank]) ws)) - 1) (key ++ concat (map (λ x, x ++ [blank]) ws)), v, []))) as H.
  { intros key ws0 Hws0. revert key. induction Hws0 as [|x ws0 Hx _ IH]; intros key Hl.
    - cbn [app frontpair map concat] in *. rewrite app_nil_r in *. change (findeq (eqsign :: v)) with (Some ([] : str, v)). cbn iota. rewrite Hl. done.
    - cbn [app frontpair]. rewrite findeq_none by done. cbn [map concat] in Hl |- *. rewrite IH; [by rewrite <-!app_assoc|by rewrite <-!app_assoc in *]. }
  destruct (exists_last Hne) as (ws' & w & ->).
  assert (concat (map (λ x, x ++ [blank]) (ws' ++ [w])) = unwords (ws' ++ [w]) ++ [blank]) as Ec.
  { rewrite unwords_snoc, map_app, concat_app. cbn. by rewrite app_nil_r, <-app_assoc. }
  split.
  - unfold attrargs. rewrite app_length. cbn [length]. rewrite Nat.add_1_r. cbn [attrargsloop].
    rewrite (H [] (ws' ++ [w])); [|done|by rewrite Ec; cbn [app]; rewrite last_snoc]. cbn [app]. rewrite Ec.
    rewrite (take_app_alt (unwords _)) by (rewrite app_length; cbn [length]; lia).
    destruct ((ws' ++ [w]) ++ [eqsign :: v]) eqn:E; [by destruct ws'|]. destruct (length (ws' ++ [w])); done.
  - apply rep_answers. apply (rep_push_back noattrs []); [apply rep_empty|]. by intros ?%elem_of_nil.
Qed.
(** A first argument that starts with '=' is read out of range. *)
Theorem C85_leading_equals_undefined v args : attrargs ((eqsign :: v) :: args) = Undef.
Proof. done. Qed.

Print Assumptions C67_attribute_list.
Print Assumptions C67_lookup_missing_refuted.
Print Assumptions C85_attrargs.
Print Assumptions C85_separate_value.
Print Assumptions C85_leading_equals_undefined.
