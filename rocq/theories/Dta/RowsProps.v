(** The rows that DTA-star is trained with: C141. *)
From stdpp Require Import strings.
From stdpp Require Import prelude.
From Coq Require Import ZArith QArith Lia Qfield.
From Verif Require Import Text.Model Dta.Table Dta.Rows.
Local Open Scope Q_scope.
Local Open Scope list_scope.

(** ** Specification *)

(** The characters of a literal. *)
Definition chars (s : String.string) : str := (λ c, Z.of_nat (Ascii.nat_of_ascii c)) <$> String.list_ascii_of_string s.

(** What a call of the reader is about. *)
Inductive item := Branching (b : Z) | Sample (h : Q) (d : Z) (f : Q) | Other.
Inductive says (strtol : str → Z) (strtod : str → Q) : list str → item → Prop :=
  | says_branching t rest : says strtol strtod (chars "#altrow"%string :: chars "branching"%string :: t :: rest) (Branching (strtol t))
  | says_sample th td tf rest :
      says strtol strtod (chars "#altrow"%string :: chars "sample"%string :: th :: td :: tf :: rest) (Sample (strtod th) (strtol td) (strtod tf))
  | says_other_row name rest : name ≠ chars "branching"%string → name ≠ chars "sample"%string →
      says strtol strtod (chars "#altrow"%string :: name :: rest) Other
  | says_other c rest : c ≠ chars "#altrow"%string → says strtol strtod (c :: rest) Other.
Definition negative (i : item) : Prop := match i with Branching b => (b < 0)%Z | Sample _ d _ => (d < 0)%Z | Other => False end.
Definition samples (l : list item) : list row := omap (λ i, match i with Sample h d f => Some (Row h (Z.to_nat d) f) | _ => None end) l.
Definition branchings (l : list item) : list Z := omap (λ i, match i with Branching b => Some b | _ => None end) l.
Definition mean (l : list Z) : Q := if decide (l = []) then 0 else inject_Z (foldr Z.add 0%Z l) / inject_Z (Z.of_nat (length l)).

Section Rows.
Context (strtol : str → Z) (strtod : str → Q).

(** The state after the items [l]: the mean times their number is their sum. *)
Definition holds (l : list item) (i : info) : Prop :=
  i_rows i = samples l ∧ i_nsamples i = length (branchings l) ∧
  i_branching i * inject_Z (Z.of_nat (length (branchings l))) == inject_Z (foldr Z.add 0%Z (branchings l)) ∧
  (branchings l = [] → i_branching i == 0).

Lemma sum_snoc l b : foldr Z.add 0%Z (l ++ [b]) = (foldr Z.add 0%Z l + b)%Z.
Proof. induction l as [|x l IH]; cbn; [lia|]. rewrite IH. lia. Qed.

Lemma readrow_spec l i c it : holds l i → says strtol strtod c it →
  (negative it → readrow strtol strtod c i = Fatal) ∧ (¬ negative it → ∃ i', readrow strtol strtod c i = Ok i' ∧ holds (l ++ [it]) i').
Proof.
  intros (H1 & H2 & H3 & H4) Hs. unfold holds, samples, branchings. rewrite !omap_app. cbn [omap list_omap].
  destruct Hs as [t rest|th td tf rest|name rest Hn1 Hn2|c rest Hc]; cbn [readrow negative].
  - rewrite decide_False by (intros H; by apply H). rewrite decide_True by done. destruct (decide (strtol t < 0)%Z); [done|].
    split; [done|]. intros _. eexists. split; [done|]. cbn [i_rows i_nsamples i_branching]. rewrite app_nil_r, app_length. cbn [length].
    split_and!; [done|rewrite H2; unfold branchings; lia| |by intros []%app_eq_nil].
    rewrite sum_snoc, inject_Z_plus. fold (branchings l). rewrite <- H3, H2.
    replace (Z.of_nat (length (branchings l) + 1)) with (Z.of_nat (length (branchings l)) + 1)%Z by lia.
    replace (Z.of_nat (S (length (branchings l)))) with (Z.of_nat (length (branchings l)) + 1)%Z by lia.
    rewrite inject_Z_plus. change (inject_Z 1) with 1. field. intros E. unfold Qeq in E. cbn in E. lia.
  - rewrite decide_False by (intros H; by apply H). rewrite decide_False by done. rewrite decide_False by (intros H; by apply H).
    destruct (decide (strtol td < 0)%Z); [done|]. split; [done|]. intros _. eexists. split; [done|]. cbn [i_rows i_nsamples i_branching].
    rewrite app_nil_r, H1. done.
  - rewrite decide_False by (intros H; by apply H). rewrite decide_False by done. rewrite decide_True by done. split; [done|]. intros _.
    exists i. by rewrite !app_nil_r.
  - rewrite decide_True by done. split; [done|]. intros _. exists i. by rewrite !app_nil_r.
Qed.

Lemma readcalls_spec calls its : Forall2 (says strtol strtod) calls its → ∀ l i, holds l i →
  (Exists negative its → readcalls strtol strtod calls i = Fatal) ∧
  (¬ Exists negative its → ∃ i', readcalls strtol strtod calls i = Ok i' ∧ holds (l ++ its) i').
Proof.
  induction 1 as [|c it calls its Hs _ IH]; intros l i Hi; cbn [readcalls].
  - split; [by intros ?%Exists_nil|]. intros _. exists i. by rewrite app_nil_r.
  - destruct (readrow_spec l i c it Hi Hs) as [Hn Hp]. rewrite Exists_cons.
    assert (negative it ∨ ¬ negative it) as [Hneg|Hneg] by (destruct it; cbn; [lia|lia|tauto]).
    + rewrite Hn by done. split; [done|]. tauto.
    + destruct (Hp Hneg) as (i' & -> & Hi'). destruct (IH _ _ Hi') as [IHn IHp]. rewrite <- app_assoc in IHp. cbn [app] in IHp.
      split; [intros [?|?]; [done|by apply IHn]|]. intros Hno. apply IHp. tauto.
Qed.

(** ** C141: reading the training rows *)

(** The rows are the samples of all files, in order, and the branching factor is the mean of all that the files give. *)
Theorem C141_rows files itss : Forall2 (Forall2 (says strtol strtod)) files itss → ¬ Exists negative (concat itss) →
  ∃ rows br, readall strtol strtod files = Ok (rows, br) ∧ rows = samples (concat itss) ∧ br == mean (branchings (concat itss)).
Proof.
  intros Hf Hneg. unfold readall.
  assert (∀ l i, holds l i → ∃ i', readfiles strtol strtod files i = Ok (i_rows i', i_branching i') ∧ holds (l ++ concat itss) i') as H.
  { induction Hf as [|f its files itss Hs Hf IH]; intros l i Hi; cbn [readfiles concat] in *.
    - exists i. by rewrite app_nil_r.
    - rewrite Exists_app in Hneg. destruct (proj2 (readcalls_spec f its Hs l i Hi)) as (i' & -> & Hi'); [tauto|].
      rewrite app_assoc. apply IH; [tauto|done]. }
  destruct (H [] (Info 0 0 [])) as (i & -> & H1 & _ & H3 & H4); [by split_and!|]. cbn [app] in *. do 2 eexists. split_and!; [done|done|].
  unfold mean. case_decide as Hd; [by apply H4|]. rewrite <- H3. field. intros E. unfold Qeq in E. cbn in E.
  destruct (branchings (concat itss)); [done|]. cbn in E. lia.
Qed.

(** A negative number in any file is an error. *)
Theorem C141_negative files itss : Forall2 (Forall2 (says strtol strtod)) files itss → Exists negative (concat itss) →
  readall strtol strtod files = Fatal.
Proof.
  intros Hf. unfold readall. assert (holds [] (Info 0 0 [])) as Hi by (by split_and!). revert Hi. generalize (Info 0 0 []), (@nil item).
  induction Hf as [|f its files itss Hs Hf IH]; intros i l Hi Hneg; cbn [readfiles concat] in *; [by apply Exists_nil in Hneg|].
  destruct (readcalls_spec f its Hs l i Hi) as [Hn Hp].
  assert (Exists negative its ∨ ¬ Exists negative its) as [He|He].
  { clear. induction its as [|it its IH]; [right; by intros ?%Exists_nil|]. rewrite Exists_cons.
    assert (negative it ∨ ¬ negative it) by (destruct it; cbn; [lia|lia|tauto]). tauto. }
  - by rewrite Hn.
  - destruct (Hp He) as (i' & -> & Hi'). apply (IH i' _ Hi'). rewrite Exists_app in Hneg. tauto.
Qed.
End Rows.

(** ** Example: numbers of one digit *)
Definition digit (s : str) : Z := match s with c :: _ => (c - 48)%Z | [] => 0%Z end.
Definition ex_files : list (list (list str)) :=
  [[[chars "#altrow"%string; chars "branching"%string; chars "3"%string]; [chars "#altrow"%string; chars "sample"%string; chars "1"%string; chars "2"%string; chars "4"%string]];
   [[chars "#pair"%string; chars "alg"%string]; [chars "#altrow"%string; chars "branching"%string; chars "4"%string]]].
Example C141_example : Forall2 (Forall2 (says digit (λ s, inject_Z (digit s)))) ex_files [[Branching 3; Sample 1 2 4]; [Other; Branching 4]] ∧
  mean (branchings [Branching 3; Sample 1 2 4; Other; Branching 4]) == 7 # 2.
Proof.
  split; [|vm_compute; reflexivity]. repeat constructor; done.
Qed.

Print Assumptions C141_rows.
Print Assumptions C141_negative.
