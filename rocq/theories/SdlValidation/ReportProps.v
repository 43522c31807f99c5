(* C61: diagnostics of schema validation mean what they say. *)
From Coq Require Import Ascii String List Bool Arith Lia.
From Verif.SdlValidation Require Import Model Spec Facts CheckFacts CycleFacts DocFacts.
Import ListNotations.
Local Open Scope string_scope.
Local Open Scope list_scope.

Section Report.
Variable opts : options.
Variable doc : document.

(* ------------------------------------------------ what is reported is true *)

Lemma directive_sound : forall dirs l e, site doc dirs l -> directive_error doc dirs l e -> violates opts doc e.
Proof.
  intros dirs l e HS [(d & def & H1 & H2 & H3 & ->)|(d & def & H1 & H2 & H3 & ->)]; cbn [violates].
  - exists dirs, l, def. auto.
  - exists dirs, def. auto.
Qed.

Lemma input_sound : forall t p e, input_position doc t p -> input_error doc t p e -> violates opts doc e.
Proof.
  intros t p e HP (HB & [(HU & ->)|(u & Hu & HK & ->)]); cbn [violates].
  - split; [exact HB|]. split; [exact HU|]. exists t. split; [now apply type_name_iff|]. now left.
  - split; [exact HB|]. exists t, u. split; [now apply type_name_iff|]. auto.
Qed.

Lemma output_sound : forall t p e, output_position doc t p -> output_error opts doc t p e -> violates opts doc e.
Proof.
  intros t p e HP (HB & [(HU & ->)|(u & fs & Hu & HK & ->)]); cbn [violates].
  - apply not_resolved_iff in HU. destruct HU as [HU HE]. split; [exact HB|]. split; [exact HU|].
    exists t. split; [now apply type_name_iff|]. auto.
  - split; [exact HB|]. exists t, u, fs. split; [now apply type_name_iff|]. auto.
Qed.

Lemma argument_sound : forall n f a e,
  checked_argument doc n f a -> argument_error opts doc n f a e -> violates opts doc e.
Proof.
  intros n f a e HA [(H & ->)|[H|[(H1 & H2 & H3 & H4 & ->)|H]]].
  - cbn [violates]. exists n, f, a. auto.
  - eapply input_sound; [|exact H]. now constructor.
  - cbn [violates]. split; [exact H1|]. exists a. auto.
  - eapply directive_sound; [|exact H]. now apply (site_argument doc n f).
Qed.

Lemma field_sound : forall n f e,
  checked_field doc n f -> field_error opts doc n f e -> violates opts doc e.
Proof.
  intros n f e HF [H|[(H & ->)|[(a & H & ->)|[(a & Ha & H)|H]]]].
  - eapply directive_sound; [|exact H]. now apply (site_field doc n).
  - cbn [violates]. split; [exact H|]. exists f. auto.
  - cbn [violates]. exists f. auto.
  - eapply argument_sound; [|exact H]. exists f. auto.
  - eapply output_sound; [|exact H]. exists n, f. auto.
Qed.

Lemma implements_sound : forall n is fs i e,
  implementer doc n is fs -> In i is -> implements_error opts doc n is fs i e -> violates opts doc e.
Proof.
  intros n is fs i e HI Hi [(H & ->)|[(u & H1 & H2 & ->)|(u & is' & fs' & H1 & H2 & [(j & H3 & H4 & ->)|H])]].
  - cbn [violates]. exists is, fs. auto.
  - cbn [violates]. exists is, fs, u. auto.
  - cbn [violates]. exists is, fs, u, is', fs'. auto 6.
  - destruct H as [(x & y & Hy & HX & [(HT & ->)|H])|(f & H3 & H4 & ->)].
    + cbn [violates]. exists is, fs, u, is', fs', x, y. auto 8.
    + pose proof (proj2 (first_with_in _ _ _ HX)) as NX.
      destruct H as [(a & c & d & HC & HD & HT & ->)|[(a & c & HC & HD & HT & ->)|(a & HC & HD & ->)]];
        rewrite NX; cbn [violates].
      * exists is, fs, u, is', fs', x, y, c, d. auto 10.
      * exists is, fs, u, is', fs', x, y, c. auto 10.
      * exists is, fs, u, is', fs', x, y. auto 10.
    + cbn [violates]. exists is, fs, u, is', fs'. auto 6.
Qed.

Lemma implementer_sound : forall n is fs e,
  implementer doc n (all_impl doc n is) (all_of doc n fs) ->
  implementer_error opts doc n is fs e -> violates opts doc e.
Proof.
  intros n is fs e HI [(i & H & ->)|(i & Hi & H)].
  - cbn [violates]. exists (all_impl doc n is), (all_of doc n fs). auto.
  - eapply implements_sound; eauto.
Qed.

Lemma any_error_sound : forall e, any_error opts doc e -> violates opts doc e.
Proof.
  intros e [H|[H|[H|[H|[H|[H|[H|H]]]]]]].
  - destruct H as ([s|t|d] & Hd & H); cbn [own_error] in H.
    + destruct H.
    + destruct H as [(X & HS & HK & ->)|(HR & ->)]; cbn [violates].
      * split; [exact HS|]. exists (t_dirs t), (t_kind t). split; [|exact HK].
        unfold declares. destruct t as [x n dirs k]. cbn in *. now subst.
      * split; [exact HR|]. exists t. auto.
    + destruct H as (HR & ->). cbn [violates]. exists d. auto.
  - destruct H as (n & -> & H). exact H.
  - destruct H as (s & Hs & [H|H]).
    + eapply directive_sound; [|exact H]. now constructor.
    + destruct H as [(n & r & r' & D & R1 & R2 & ->)|(r & o & Ho & n & -> & [(HU & ->)|(t & Ht & HK & ->)])]; cbn [violates].
      * exists s, r, r'. auto.
      * exists s. auto.
      * exists s, t. auto.
  - destruct H as (-> & H). exact H.
  - destruct H as (HS & r & t & HR & Ht & HK & ->). cbn [violates]. split; [exact HS|]. split; [exact HR|].
    exists t. auto.
  - destruct H as (d & a & Hd & Ha & H). eapply input_sound; [|exact H]. now constructor.
  - destruct H as (t & Ht & X & [H|(HF & HS & HN & ->)]).
    + eapply directive_sound; [|exact H]. destruct (t_kind t) eqn:K; cbn [kind_location].
      * apply (site_scalar doc (t_name t)). unfold extends. destruct t as [x n dirs k]. cbn in *. now subst.
      * eapply site_object; eauto.
      * eapply site_interface; eauto.
      * eapply site_union; eauto.
      * eapply site_enum; eauto.
      * eapply site_input; eauto.
    + cbn [violates]. split; [exact HF|].
      split; [intros E; apply HS; destruct (t_kind t); try discriminate; reflexivity|].
      split; [|exact HN]. exists (t_dirs t), (t_kind t). split; [|now apply extends_as_iff].
      unfold extends. destruct t as [x n dirs k]. cbn in *. now subst.
  - destruct H as (n & dirs & k & Hd & H).
    destruct k as [|is fs|is fs|ms|vs|fs]; cbn [definition_error] in H.
    + destruct H.
    + destruct H as [H|[H|[(HE & ->)|[(f & Hf & H)|(f & H & ->)]]]].
      * eapply directive_sound; [|exact H]. eapply (site_object doc _ is fs Hd). reflexivity.
      * eapply implementer_sound; [|exact H]. eapply implementer_object; eauto; reflexivity.
      * cbn [violates]. unfold all_of in HE. apply app_eq_nil in HE. destruct HE as [-> HE]. exists dirs, is. auto.
      * eapply field_sound; [|exact H]. eapply checked_object; eauto.
      * cbn [violates]. exists dirs, is, fs. auto.
    + destruct H as [H|[H|[(-> & ->)|(f & Hf & H)]]].
      * eapply directive_sound; [|exact H]. eapply (site_interface doc _ is fs Hd). reflexivity.
      * eapply implementer_sound; [|exact H]. eapply implementer_interface; eauto; reflexivity.
      * cbn [violates]. exists dirs, is. auto.
      * eapply field_sound; [|exact H]. eapply checked_interface; eauto.
    + destruct H as [H|[(m & Hm & HU & ->)|[(m & t & Hm & Ht & HK & ->)|(m & H & ->)]]].
      * eapply directive_sound; [|exact H]. eapply (site_union doc _ ms Hd). reflexivity.
      * cbn [violates]. split; [exact HU|]. exists dirs, ms. auto.
      * cbn [violates]. split; [exists t; auto|]. exists dirs, ms. auto.
      * cbn [violates]. exists dirs, ms. auto.
    + destruct H as [H|[(v & H & ->)|(v & Hv & H)]].
      * eapply directive_sound; [|exact H]. eapply (site_enum doc _ vs Hd). reflexivity.
      * cbn [violates]. exists dirs, vs. auto.
      * eapply directive_sound; [|exact H]. apply (site_value doc n). exists dirs, vs. auto.
    + destruct H as [H|[(-> & ->)|[(f & Hf & [H|H])|H]]].
      * eapply directive_sound; [|exact H]. eapply (site_input doc _ fs Hd). reflexivity.
      * cbn [violates]. exists dirs. auto.
      * eapply directive_sound; [|exact H]. apply (site_input_field doc n). exists dirs, fs. auto.
      * eapply input_sound; [|exact H]. constructor. exists dirs, fs. auto.
      * apply emits_cycles_sound in H. destruct H as (chain & -> & HP). cbn [violates]. exists dirs, fs. auto.
Qed.

(* ------------------------------------------------ what is wrong is reported *)

Lemma defined_by : forall n dirs k e,
  declares doc n dirs k -> definition_error opts doc n dirs k e -> any_error opts doc e.
Proof. intros n dirs k e H1 H2. do 7 right. exists n, dirs, k. auto. Qed.

Lemma field_complete : forall n f e, checked_field doc n f -> field_error opts doc n f e -> any_error opts doc e.
Proof.
  intros n f e [dirs is fs Hd Hf|dirs is fs Hd Hf] H.
  - eapply defined_by; [exact Hd|]. cbn [definition_error]. do 3 right. left. exists f. auto.
  - eapply defined_by; [exact Hd|]. cbn [definition_error]. do 3 right. exists f. auto.
Qed.

Lemma argument_complete : forall n f a e,
  checked_argument doc n f a -> argument_error opts doc n f a e -> any_error opts doc e.
Proof.
  intros n f a e (x & Hx & <- & Ha) H. apply (field_complete n x e Hx). do 3 right. left. exists a. auto.
Qed.

Lemma input_field_complete : forall n f e,
  checked_input_field doc n f -> input_field_error doc n f e -> any_error opts doc e.
Proof.
  intros n f e (dirs & fs & Hd & Hf) H. eapply defined_by; [exact Hd|]. cbn [definition_error].
  do 2 right. left. exists f. auto.
Qed.

Lemma input_complete : forall t p e, input_position doc t p -> input_error doc t p e -> any_error opts doc e.
Proof.
  intros t p e [n f a Ha|n f Hf|d a Hd Ha] H.
  - apply (argument_complete n f a e Ha). right. now left.
  - apply (input_field_complete n f e Hf). now right.
  - do 5 right. left. exists d, a. auto.
Qed.

Lemma output_complete : forall t p e, output_position doc t p -> output_error opts doc t p e -> any_error opts doc e.
Proof.
  intros t p e (n & f & Hf & -> & ->) H. apply (field_complete n f e Hf). do 4 right. exact H.
Qed.

Lemma directive_complete : forall dirs l e, site doc dirs l -> directive_error doc dirs l e -> any_error opts doc e.
Proof.
  assert (HT : forall t e, In (DType t) doc ->
    t_kind t <> KScalar ->
    directive_error doc (t_dirs t) (kind_location (t_kind t)) e -> any_error opts doc e).
  { intros t e Ht HK H. destruct (t_extend t) eqn:X.
    - do 6 right. left. exists t. split; [exact Ht|]. split; [exact X|]. now left.
    - apply (defined_by (t_name t) (t_dirs t) (t_kind t) e).
      + unfold declares. destruct t as [x n dirs k]. cbn in *. now subst.
      + destruct (t_kind t); cbn [definition_error kind_location] in *; [contradiction| | | | |]; now left. }
  intros dirs l e HS H. destruct HS as [s Hs|t is fs Ht K|t is fs Ht K|t ms Ht K|t vs Ht K|t fs Ht K|n dirs Hx|n f Hf|n f a Ha|n v Hv|n f Hf].
  - do 2 right. left. exists s. auto.
  - apply (HT t e Ht); [congruence|]. now rewrite K.
  - apply (HT t e Ht); [congruence|]. now rewrite K.
  - apply (HT t e Ht); [congruence|]. now rewrite K.
  - apply (HT t e Ht); [congruence|]. now rewrite K.
  - apply (HT t e Ht); [congruence|]. now rewrite K.
  - do 6 right. left. exists (mktype true n dirs KScalar). split; [exact Hx|]. split; [reflexivity|]. now left.
  - apply (field_complete n f e Hf). now left.
  - apply (argument_complete n f a e Ha). do 3 right. exact H.
  - destruct Hv as (dirs & vs & Hd & Hv). eapply defined_by; [exact Hd|]. cbn [definition_error].
    do 2 right. exists v. auto.
  - apply (input_field_complete n f e Hf). now left.
Qed.

Lemma implementer_complete : forall n is fs e,
  implementer doc n is fs ->
  (exists i, twice is i /\ e = DuplicateImplements n i) \/
  (exists i, In i is /\ implements_error opts doc n is fs i e) -> any_error opts doc e.
Proof.
  intros n is fs e [dirs is0 fs0 Hd -> ->|dirs is0 fs0 Hd -> ->] H;
    (eapply defined_by; [exact Hd|]); cbn [definition_error]; right; left; exact H.
Qed.

Lemma any_error_complete : forall e,
  violates opts doc e -> (forall t chain, e <> InputCycle t chain) -> any_error opts doc e.
Proof.
  intros e H HC. destruct e; cbn [violates] in H.
  - (* ReservedName *)
    destruct H as (HS & dirs & k & Hd & HK). left. exists (DType (mktype false n dirs k)).
    split; [exact Hd|]. left. cbn. auto.
  - (* DoubleUnderscore *)
    destruct H as (HR & t & Ht & <-). left. exists (DType t). split; [exact Ht|]. right. auto.
  - (* DuplicateDefinition *) right. left. exists n. auto.
  - (* DirectiveName *) destruct H as (d & Hd & HR). left. exists (DDirective d). split; [exact Hd|]. cbn. auto.
  - (* NotRepeatable *)
    destruct H as (dirs & l & def & HS & H1 & H2 & H3). eapply directive_complete; [exact HS|]. left. exists d, def. auto.
  - (* BadLocation *)
    destruct H as (dirs & def & HS & H1 & H2 & H3). eapply directive_complete; [exact HS|]. right. exists d, def. auto.
  - (* DuplicateSchema *) do 3 right. left. auto.
  - (* RootTwice *)
    destruct H as (s & r & r' & Hs & H1 & H2 & H3). do 2 right. left. exists s. split; [exact Hs|]. right. left.
    exists n, r, r'. auto.
  - (* RootUnknown *)
    destruct H as (s & Hs & HR & HU). do 2 right. left. exists s. split; [exact Hs|]. right. right.
    exists root, (Some n). split; [exact HR|]. exists n. auto.
  - (* RootNotObject *)
    destruct H as (s & t & Hs & HR & Ht & HK). do 2 right. left. exists s. split; [exact Hs|]. right. right.
    exists root, (Some n). split; [exact HR|]. exists n. split; [reflexivity|]. right. exists t. auto.
  - (* RootShouldBeObject *)
    destruct H as (HS & HR & t & Ht & HK). do 4 right. left. split; [exact HS|]. exists root, t. auto.
  - (* DuplicateImplements *)
    destruct H as (is & fs & HI & H). eapply implementer_complete; [exact HI|]. left. exists i. auto.
  - (* UnknownInterface *)
    destruct H as (is & fs & HI & Hi & H). eapply implementer_complete; [exact HI|]. right. exists i.
    split; [exact Hi|]. left. auto.
  - (* NotAnInterface *)
    destruct H as (is & fs & u & HI & Hi & H1 & H2). eapply implementer_complete; [exact HI|]. right. exists i.
    split; [exact Hi|]. right. left. exists u. auto.
  - (* MissingTransitive *)
    destruct H as (is & fs & u & is' & fs' & HI & Hi & H1 & H2 & H3 & H4).
    eapply implementer_complete; [exact HI|]. right. exists via.
    split; [exact Hi|]. right. right. exists u, is', fs'. split; [exact H1|]. split; [exact H2|]. left. exists i. auto.
  - (* MissingField *)
    destruct H as (is & fs & u & is' & fs' & HI & Hi & H1 & H2 & H3 & H4).
    eapply implementer_complete; [exact HI|]. right. exists i.
    split; [exact Hi|]. right. right. exists u, is', fs'. split; [exact H1|]. split; [exact H2|]. right. right.
    exists f. auto.
  - (* BadFieldType *)
    destruct H as (is & fs & u & is' & fs' & x & y & HI & Hi & H1 & H2 & H3 & <- & H4 & H5).
    eapply implementer_complete; [exact HI|]. right. exists i.
    split; [exact Hi|]. right. right. exists u, is', fs'. split; [exact H1|]. split; [exact H2|]. right. left.
    exists x, y. auto 6.
  - (* ArgumentType *)
    destruct H as (is & fs & u & is' & fs' & x & y & c & d & HI & Hi & H1 & H2 & H3 & <- & H4 & H5 & H6 & H7).
    eapply implementer_complete; [exact HI|]. right. exists i.
    split; [exact Hi|]. right. right. exists u, is', fs'. split; [exact H1|]. split; [exact H2|]. right. left.
    exists x, y. split; [exact H3|]. split; [exact H4|]. right. left. exists a, c, d.
    rewrite (proj2 (first_with_in _ _ _ H4)). auto.
  - (* ArgumentRequired *)
    destruct H as (is & fs & u & is' & fs' & x & y & c & HI & Hi & H1 & H2 & H3 & <- & H4 & H5 & H6 & H7).
    eapply implementer_complete; [exact HI|]. right. exists i.
    split; [exact Hi|]. right. right. exists u, is', fs'. split; [exact H1|]. split; [exact H2|]. right. left.
    exists x, y. split; [exact H3|]. split; [exact H4|]. right. right. left. exists a, c.
    rewrite (proj2 (first_with_in _ _ _ H4)). auto.
  - (* ArgumentMissing *)
    destruct H as (is & fs & u & is' & fs' & x & y & HI & Hi & H1 & H2 & H3 & <- & H4 & H5 & H6).
    eapply implementer_complete; [exact HI|]. right. exists i.
    split; [exact Hi|]. right. right. exists u, is', fs'. split; [exact H1|]. split; [exact H2|]. right. left.
    exists x, y. split; [exact H3|]. split; [exact H4|]. do 3 right. exists a.
    rewrite (proj2 (first_with_in _ _ _ H4)). auto.
  - (* EmptyObject *)
    destruct H as (dirs & is & Hd & HE). eapply defined_by; [exact Hd|]. cbn [definition_error]. do 2 right. left.
    unfold all_of. rewrite HE. auto.
  - (* EmptyInterface *)
    destruct H as (dirs & is & Hd). eapply defined_by; [exact Hd|]. cbn [definition_error]. do 2 right. left. auto.
  - (* EmptyInput *)
    destruct H as (dirs & Hd). eapply defined_by; [exact Hd|]. cbn [definition_error]. right. left. auto.
  - (* FieldName *)
    destruct H as (HR & x & Hx & <-). apply (field_complete t x _ Hx). right. left. auto.
  - (* DuplicateField *)
    destruct H as (dirs & is & fs & Hd & H). eapply defined_by; [exact Hd|]. cbn [definition_error]. do 4 right.
    exists f. auto.
  - (* DuplicateArgument *)
    destruct H as (x & Hx & <- & H). apply (field_complete t x _ Hx). do 2 right. left. exists a. auto.
  - (* ArgumentName *)
    destruct H as (t & f & a & Ha & H). apply (argument_complete t f a _ Ha). left. auto.
  - (* RequiredDeprecated *)
    destruct H as (HD & x & Hx & <- & H). apply (argument_complete t f x _ Hx). do 2 right. left. tauto.
  - (* UnknownType *)
    destruct H as (HB & HU & t & HN & H). apply type_name_iff in HN. destruct H as [HP|(HP & HX)].
    + apply (input_complete t at_ _ HP). unfold input_error. rewrite HN. auto.
    + apply (output_complete t at_ _ HP). unfold output_error. rewrite HN. split; [exact HB|]. left.
      split; [|reflexivity]. apply not_resolved_iff. auto.
  - (* OutputInInput *)
    destruct H as (HB & t & u & HN & HP & Hu & HK). apply type_name_iff in HN.
    apply (input_complete t at_ _ HP). unfold input_error. rewrite HN. split; [exact HB|]. right. exists u. auto.
  - (* InputInOutput *)
    destruct H as (HB & t & u & fs & HN & HP & Hu & HK). apply type_name_iff in HN.
    apply (output_complete t at_ _ HP). unfold output_error. rewrite HN. split; [exact HB|]. right. exists u, fs. auto.
  - (* DuplicateEnumValue *)
    destruct H as (dirs & vs & Hd & H). eapply defined_by; [exact Hd|]. cbn [definition_error]. right. left.
    exists v. auto.
  - (* InputCycle *) exfalso. now apply (HC t chain).
  - (* UnionUnknown *)
    destruct H as (HU & dirs & ms & Hd & H). eapply defined_by; [exact Hd|]. cbn [definition_error]. right. left.
    exists m. auto.
  - (* UnionNotObject *)
    destruct H as ((t & Ht & HK) & dirs & ms & Hd & H). eapply defined_by; [exact Hd|]. cbn [definition_error].
    do 2 right. left. exists m, t. auto.
  - (* UnionDuplicate *)
    destruct H as (dirs & ms & Hd & H). eapply defined_by; [exact Hd|]. cbn [definition_error]. do 3 right.
    exists m. auto.
  - (* ExtendUnknown *)
    destruct H as (HF & HS & (dirs & knd & Hx & HK) & HN). apply extends_as_iff in HK.
    do 6 right. left. exists (mktype true n dirs knd). split; [exact Hx|]. split; [reflexivity|]. right. cbn.
    rewrite HK. split; [exact HF|]. split; [|auto]. intros E. apply HS. rewrite <- HK, E. reflexivity.
Qed.

End Report.

(* Every diagnostic that is reported is true of the document, and for every
   one that is true of it one that says the same is reported (for a cycle of
   input objects: some chain). *)
Theorem C61_exact : forall opts doc l,
  validate opts doc = Some l ->
  (forall e, In e l -> violates opts doc e) /\
  (forall e, violates opts doc e -> exists e', In e' l /\ same_diagnostic e e').
Proof.
  intros opts doc l H.
  assert (Hok : validate opts doc <> None) by congruence.
  assert (HE : forall e, In e l <-> any_error opts doc e).
  { intros e. rewrite <- (emits_validate opts doc e Hok), H. reflexivity. }
  split.
  - intros e He. apply any_error_sound. now apply HE.
  - intros e He.
    assert (DC : (exists t chain, e = InputCycle t chain) \/ forall t chain, e <> InputCycle t chain).
    { destruct e; try (right; discriminate). left. eauto. }
    destruct DC as [(t & chain & ->)|HC].
    + cbn [violates] in He. destruct He as (dirs & fs & Hd & HP).
      destruct (emits_cycles_complete doc t fs chain HP) as (chain' & HX).
      exists (InputCycle t chain'). split; [|reflexivity]. apply HE.
      eapply defined_by; [exact Hd|]. cbn [definition_error]. do 3 right. exact HX.
    + exists e. split; [apply HE; now apply any_error_complete|].
      destruct e; cbn; try reflexivity.
Qed.

(* No diagnostics means that none applies. *)
Theorem C61_accepted : forall opts doc,
  validate opts doc = Some [] <->
  validate opts doc <> None /\ forall e, ~ violates opts doc e.
Proof.
  intros opts doc. split.
  - intros H. split; [congruence|]. intros e He.
    destruct (proj2 (C61_exact opts doc [] H) e He) as (e' & [] & _).
  - intros [Hok H]. destruct (validate opts doc) as [l|] eqn:E; [|contradiction].
    destruct l as [|e l]; [reflexivity|]. exfalso. apply (H e).
    apply (proj1 (C61_exact opts doc (e :: l) E)). now left.
Qed.

(* A document with faults of several sorts:

     interface Node { id: ID!  rel(first: Int): [Node!] }
     type Query implements Node @mark @mark { id: ID  rel(first: String!, last: Int!): [Item!] }
     union Found = Query | Node | Query
     input Filter { not: Filter!  owner: Query }
     directive @mark on OBJECT *)
Definition faulty : document :=
  [DType (mktype false "Node" [] (KInterface []
     [mkfield "id" [] (Named "ID" false) [];
      mkfield "rel" [mkinput "first" (Named "Int" true) false []] (ListOf (Named "Node" false) true) []]));
   DType (mktype false "Query" ["mark"; "mark"] (KObject ["Node"]
     [mkfield "id" [] (Named "ID" true) [];
      mkfield "rel" [mkinput "first" (Named "String" false) false []; mkinput "last" (Named "Int" false) false []]
        (ListOf (Named "Item" false) true) []]));
   DType (mktype false "Found" [] (KUnion ["Query"; "Node"; "Query"]));
   DType (mktype false "Filter" []
     (KInput [mkinput "not" (Named "Filter" false) false []; mkinput "owner" (Named "Query" true) false []]));
   DDirective (mkdir "mark" false [LObject] [])].

Example C61_example :
  validate (mkoptions true false) faulty = Some
    [NotRepeatable "mark"; BadFieldType "Query" "id" "Node"; BadFieldType "Query" "rel" "Node";
     ArgumentType "Query" "rel" "first" "Node"; ArgumentRequired "Query" "rel" "last" "Node";
     UnknownType "Item" (AtField "Query" "rel"); UnionNotObject "Found" "Node"; UnionDuplicate "Found" "Query";
     OutputInInput "Query" (AtField "Filter" "owner"); InputCycle "Filter" ["not"]].
Proof. reflexivity. Qed.
