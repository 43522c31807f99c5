(* C64: when validation panics.  C65: cycles of input objects, as the values
   that input objects have. *)
From Coq Require Import Ascii String List Bool Arith Lia.
From Verif.SdlValidation Require Import Model Spec Facts CheckFacts CycleFacts DocFacts ReportProps Textbook TextbookFacts TextbookProps TextbookCheck ValidProps.
Import ListNotations.
Local Open Scope string_scope.
Local Open Scope list_scope.

(* ------------------------------------------------------------------ panics *)

Theorem C64_panics : forall opts doc,
  validate opts doc = None <->
  exists n dirs vs v, declares doc n dirs (KEnum vs) /\
    twice (map fst (extension_parts values_part doc n)) v.
Proof.
  intros opts doc. rewrite validate_none. split.
  - intros (n & dirs & vs & Hd & (i & j & v & Hij & H1 & H2 & HL)). exists n, dirs, vs, v. split; [exact Hd|].
    unfold all_values in H1, H2. rewrite map_app in H1, H2.
    rewrite nth_error_app2 in H1 by (rewrite map_length; lia).
    rewrite nth_error_app2 in H2 by (rewrite map_length; lia).
    rewrite map_length in H1, H2.
    exact (nth_error_twice _ (i - length vs) (j - length vs) v ltac:(lia) H1 H2).
  - intros (n & dirs & vs & v & Hd & HT). exists n, dirs, vs. split; [exact Hd|].
    destruct (twice_nth_error _ _ HT) as (i & j & Hij & H1 & H2 & _).
    exists (length vs + i), (length vs + j), v. unfold all_values. rewrite map_app.
    split; [lia|].
    rewrite !nth_error_app2 by (rewrite map_length; lia). rewrite map_length.
    replace (length vs + i - length vs) with i by lia. replace (length vs + j - length vs) with j by lia.
    split; [exact H1|]. split; [exact H2|]. lia.
Qed.

(* Two extensions that add the same value: a document that an SDL writer may
   well produce, and for which a diagnostic exists. *)
Theorem C64_refuted : exists doc,
  (forall opts, validate opts doc = None) /\ forall opts, violates opts doc (DuplicateEnumValue "A" "Y").
Proof.
  exists [query; def "A" (KEnum [("X", [])]); ext "A" (KEnum [("Y", [])]); ext "A" (KEnum [("Y", [])])]. split.
  - intros [[] []]; reflexivity.
  - intros opts. exists [], [("X", [])]. split; [in_doc|]. now exists ["X"], [], [].
Qed.

(* Documents whose enums have each value once don't make it panic. *)
Theorem C64_no_panic : forall opts doc, holds ValuesUnique doc -> validate opts doc <> None.
Proof.
  intros opts doc H E. apply C64_panics in E. destruct E as (n & dirs & vs & v & Hd & HT).
  specialize (H n dirs vs Hd). unfold merged in H. rewrite map_app in H.
  rewrite nodup_iff in H. apply (H v). destruct HT as (a & b & c & ->).
  exists (map fst (values_part (KEnum vs)) ++ a), b, c. now rewrite <- app_assoc.
Qed.

Example C64_example :
  validate (mkoptions false false)
    [query; def "A" (KEnum [("X", [])]); ext "A" (KEnum [("Y", []); ("X", [])])] =
  Some [DuplicateEnumValue "A" "X"].
Proof. reflexivity. Qed.

(* ------------------------------------------------------------------ cycles *)

(* The types that have a value once defaults are filled in: a finite tree.
   Nullable types have null and lists the empty one. *)
Inductive has_value (doc : document) : ty -> Prop :=
| value_null t : nullable t = true -> has_value doc t
| value_list t : has_value doc (ListOf t false)
| value_leaf n : (forall fs, ~ input_fields doc n fs) -> has_value doc (Named n false)
| value_object n fs :
    input_fields doc n fs -> (forall f, In f fs -> has_value doc (iv_type f)) -> has_value doc (Named n false).

Lemma has_value_accessible : forall doc t, holds TypeNamesUnique doc -> has_value doc t ->
  forall n, t = Named n false -> ~ requires doc n n.
Proof.
  intros doc t HU H.
  assert (HA : forall n m, t = Named n false -> requires doc n m -> ~ requires doc m n /\ m <> n).
  { induction H as [t HN|t|n H|n fs HF H IH]; intros x m E HR; try discriminate.
    - subst t. discriminate.
    - injection E as ->. exfalso. clear -H HR. induction HR as [n fs f m HF Hf T|n m p A IA B IB]; [exact (H fs HF)|auto].
    - injection E as ->. clear H.
      assert (HF1 : forall n m, requires doc n m ->
        forall fs, input_fields doc n fs ->
        exists f k, In f fs /\ iv_type f = Named k false /\ (k = m \/ requires doc k m)).
      { clear -HU. intros n m HR. induction HR as [n fs f m HF Hf T|n m p A IA B IB]; intros fs0 HF0.
        - exists f, m. destruct HF as (d & b & Hd & ->), HF0 as (d' & b' & Hd' & ->).
          destruct (declares_unique doc n _ _ _ _ HU Hd Hd') as [E _]. injection E as ->. auto.
        - destruct (IA fs0 HF0) as (f & k & Hf & T & [-> |HK]).
          + exists f, m. auto.
          + exists f, k. split; [exact Hf|]. split; [exact T|]. right. now apply (requires_more doc k m p). }
      destruct (HF1 x m HR fs HF) as (f & k & Hf & T & HK).
      assert (HX : requires doc x k) by (apply (requires_field doc x fs f k); assumption).
      assert (NK : ~ requires doc k x).
      { intros Z. destruct (IH f Hf k x T Z) as [Z1 _]. now apply Z1. }
      assert (NE : k <> x).
      { intros ->. exact (NK HX). }
      split.
      + intros Z. apply NK. destruct HK as [-> |HK]; [exact Z|]. now apply (requires_more doc k m x).
      + intros ->. destruct HK as [E|HK]; [exact (NE E)|exact (NK HK)]. }
  intros n E HR. destruct (HA n n E HR) as [_ D]. now apply D.
Qed.

(* A type that is reported has no value. *)
Theorem C65_reported : forall opts doc l t chain,
  validate opts doc = Some l -> In (InputCycle t chain) l -> holds TypeNamesUnique doc ->
  ~ has_value doc (Named t false).
Proof.
  intros opts doc l t chain H Hin HU HV. apply C61_exact in H. destruct H as [H _]. specialize (H _ Hin).
  cbn [violates] in H. destruct H as (dirs & fs & Hd & HP).
  apply (has_value_accessible doc _ HU HV t eq_refl).
  assert (HG : forall fs chain m, input_path doc fs chain m ->
    forall n dirs fs0, declares doc n dirs (KInput fs0) -> incl fs (merged inputs_part doc n (KInput fs0)) -> requires doc n m).
  { clear -HU. intros fs chain m P. induction P as [fs f m Hf T|fs f k t inner chain m Hf T Ht K P IH]; intros n dirs fs0 Hd HI.
    - apply (requires_field doc n (merged inputs_part doc n (KInput fs0)) f m); [|auto|exact T]. exists dirs, fs0. auto.
    - apply (requires_more doc n k m).
      + apply (requires_field doc n (merged inputs_part doc n (KInput fs0)) f k); [|auto|exact T]. exists dirs, fs0. auto.
      + apply defined_declares in Ht. rewrite K in Ht. apply (IH k (t_dirs t) inner Ht).
        intros x Hx. unfold merged. apply in_app_iff. now left. }
  apply (HG fs chain t HP t dirs fs Hd). intros x Hx. unfold merged. apply in_app_iff. now left.
Qed.

(* names of the input objects that aren't in a list *)
Definition others (doc : document) (l : list name) : list name :=
  filter (fun n => negb (existsb (String.eqb n) l)) (map fst (types doc)).

Lemma others_less : forall doc l n, In n (map fst (types doc)) -> ~ In n l ->
  length (others doc (n :: l)) < length (others doc l).
Proof.
  intros doc l n Hn Hl. unfold others. apply (filter_length_lt _ _ _ n).
  - intros x. rewrite !negb_true_iff, !existsb_eqb_false. cbn [In]. tauto.
  - exact Hn.
  - now apply negb_true_iff, existsb_eqb_false.
  - apply negb_false_iff, existsb_eqb. now left.
Qed.

(* If nothing is reported, every type has a value. *)
Theorem C65_accepted : forall opts doc t,
  validate opts doc = Some [] -> no_extensions doc -> has_value doc t.
Proof.
  intros opts doc t H HX.
  assert (HC : forall n, ~ requires doc n n).
  { apply (C62_without_extensions opts doc NoInputCycles H HX). discriminate. }
  assert (HV : forall k above n, length (others doc above) < k ->
    (forall a, In a above -> requires doc a n) -> has_value doc (Named n false)).
  { induction k as [|k IH]; intros above n HK HA; [lia|].
    destruct (existsb (fun p => String.eqb (fst p) n && is_input (snd p)) (types doc)) eqn:E.
    - apply existsb_exists in E. destruct E as ([m kd] & Hin & E). cbn in E. apply andb_true_iff in E.
      destruct E as [E K]. apply String.eqb_eq in E. subst m. destruct kd as [|is fs|is fs|ms|vs|fs]; try discriminate.
      pose proof Hin as Hin'. apply types_in in Hin. destruct Hin as (dirs & Hd).
      assert (HF : input_fields doc n fs).
      { exists dirs, fs. split; [exact Hd|]. now rewrite merged_alone. }
      apply (value_object doc n fs HF). intros f Hf. destruct (iv_type f) as [m b|u b] eqn:T.
      + destruct b; [now apply value_null|].
        assert (HR : requires doc n m) by (apply (requires_field doc n fs f m); assumption).
        apply (IH (n :: above)).
        * assert (HL : length (others doc (n :: above)) < length (others doc above)).
          { apply others_less; [exact (in_map fst _ _ Hin')|]. intros Z. exact (HC n (HA n Z)). }
          lia.
        * intros a [<-|Ha]; [exact HR|]. apply (requires_more doc a n m); auto.
      + destruct b; [now apply value_null|apply value_list].
    - apply value_leaf. intros fs (dirs & fs0 & Hd & _).
      assert (X : existsb (fun p => String.eqb (fst p) n && is_input (snd p)) (types doc) = true).
      { apply existsb_exists. exists (n, KInput fs0). split; [apply types_in; eauto|]. cbn. now rewrite String.eqb_refl. }
      congruence. }
  destruct t as [n b|u b].
  - destruct b; [now apply value_null|]. apply (HV (S (length (others doc []))) []); [lia|]. intros a [].
  - destruct b; [now apply value_null|apply value_list].
Qed.

(* With extensions, a type without values may be accepted. *)
Theorem C65_extensions_refuted : exists doc,
  (forall opts, validate opts doc = Some []) /\ ~ has_value doc (Named "T" false).
Proof.
  exists (counterexample NoInputCycles). split.
  - intros opts. now apply counterexample_accepted.
  - intros HV.
    assert (HU : holds TypeNamesUnique (counterexample NoInputCycles)).
    { apply (C62_enforced (mkoptions true true)); [reflexivity|reflexivity|discriminate]. }
    apply (has_value_accessible _ _ HU HV "T" eq_refl).
    apply (requires_field _ "T" [arg "a" "Int"; mkinput "b" (Named "T" false) false []]
      (mkinput "b" (Named "T" false) false []) "T"); [|right; now left|reflexivity].
    exists [], [arg "a" "Int"]. split; [in_doc|reflexivity].
Qed.

(* A cycle of three types, found from each; `d` is one away from it. *)
Definition ring : document :=
  [query; def "A" (KInput [mkinput "b" (Named "B" false) false []]);
   def "B" (KInput [arg "x" "A"; mkinput "c" (Named "C" false) false []]);
   def "C" (KInput [mkinput "l" (ListOf (Named "A" false) false) false []; mkinput "a" (Named "A" false) false []]);
   def "D" (KInput [mkinput "a" (Named "A" false) false []])].

Example C65_example :
  validate (mkoptions false false) ring =
  Some [InputCycle "A" ["b"; "c"; "a"]; InputCycle "B" ["c"; "a"; "b"]; InputCycle "C" ["a"; "b"; "c"]].
Proof. reflexivity. Qed.
