(* C63: documents that obey the specification are accepted, and which aren't. *)
From Coq Require Import Ascii String List Bool Arith Lia.
From Verif.SdlValidation Require Import Model Spec Facts CheckFacts CycleFacts DocFacts ReportProps Textbook TextbookFacts TextbookProps TextbookCheck.
Import ListNotations.
Local Open Scope string_scope.
Local Open Scope list_scope.

Definition obeys_specification (doc : document) : Prop := forall r, holds r doc.

(* Two exceptions that the validator makes: a schema definition never gives an
   operation the default name of another one, and arguments that interfaces
   don't have are nullable. *)
Definition no_borrowed_default (doc : document) : Prop :=
  forall s r r' n, In (DSchema s) doc -> root_name s r n -> root_name s r' n -> r = r'.

Definition additional_nullable (doc : document) : Prop :=
  forall o n i is is' fs fs' x y a, implementation doc o n i is is' fs fs' ->
    In y fs' -> the_field fs (f_name y) x -> In a (f_args x) ->
    ~ In (iv_name a) (map iv_name (f_args y)) -> nullable (iv_type a) = true.

Section Valid.
Variable opts : options.
Variable doc : document.
Hypothesis R : obeys_specification doc.
Hypothesis HX : no_extensions doc.

Lemma declares_kind : forall n dirs k t, declares doc n dirs k -> defined doc n t -> t_kind t = k.
Proof.
  intros n dirs k t Hd Ht. pose proof (declares_defined doc n dirs k (R TypeNamesUnique) Hd) as H.
  now rewrite (defined_unique _ _ _ _ Ht H).
Qed.

Lemma checked_args_owned : forall n f a, checked_argument doc n f a ->
  exists o x, owned doc o n x /\ f_name x = f /\ In a (f_args x).
Proof. intros n f a (x & Hx & E & Ha). destruct (checked_owned doc n x Hx) as (o & HO). eauto. Qed.

Lemma input_ok : forall t p n, input_position doc t p -> named_in n t -> input_type doc n.
Proof.
  intros t p n [m f a Ha|m f Hf|d a Hd Ha] HN.
  - destruct (checked_args_owned m f a Ha) as (o & x & HO & _ & Hin). exact (R (ArgumentTypesInput o) m x a n HO Hin HN).
  - destruct Hf as (dirs & fs & Hd & Hf). apply (R InputFieldTypesInput m fs f n); [|exact Hf|exact HN].
    exists dirs, fs. split; [exact Hd|]. now rewrite merged_alone.
  - exact (R DirectiveArgumentTypesInput d a n Hd Ha HN).
Qed.

Lemma output_ok : forall t p n, output_position doc t p -> named_in n t -> output_type doc n.
Proof.
  intros t p n (m & f & Hf & -> & ->) HN. destruct (checked_owned doc m f Hf) as (o & HO).
  exact (R (FieldTypesOutput o) m f n HO HN).
Qed.

Lemma resolves_defined : forall n t, resolves opts doc n t -> defined doc n t.
Proof. intros n t [H|(_ & _ & H)]; [exact H|]. destruct (not_extended _ _ _ HX H). Qed.

Lemma resolved_implementation : forall n is fs i u is' fs',
  implementer doc n is fs -> In i is -> resolves opts doc i u -> t_kind u = KInterface is' fs' ->
  exists o, implementation doc o n i is is' fs fs'.
Proof.
  intros n is fs i u is' fs' HI Hi Hu K. apply resolves_defined in Hu. apply defined_declares in Hu. rewrite K in Hu.
  destruct (implementer_has_fields doc n is fs HI) as (o & HO). exists o. split; [exact HO|]. split; [exact Hi|].
  exists (t_dirs u), (KInterface is' fs'). rewrite !merged_alone by exact HX. cbn. auto.
Qed.

Lemma site_uses : forall dirs l, site doc dirs l -> exists p, uses doc p dirs l.
Proof.
  intros dirs l [s Hs|t is fs Ht K|t is fs Ht K|t ms Ht K|t vs Ht K|t fs Ht K|n d Hx|n f Hf|n f a Ha|n v Hv|n f Hf].
  - exists OnSchema. cbn. eauto.
  - exists OnObjects. cbn. exists t. rewrite K. auto.
  - exists OnInterfaces. cbn. exists t. rewrite K. auto.
  - exists OnUnions. cbn. exists t. rewrite K. auto.
  - exists OnEnums. cbn. exists t. rewrite K. auto.
  - exists OnInputs. cbn. exists t. rewrite K. auto.
  - exists OnScalarExtensions. cbn. eauto.
  - destruct (checked_owned doc n f Hf) as (o & HO). exists (OnFields o). cbn. eauto.
  - destruct (checked_args_owned n f a Ha) as (o & x & HO & _ & Hin). exists (OnArguments o). cbn. exists n, x, a. auto.
  - destruct Hv as (ds & vs & Hd & Hv). exists OnValues. cbn. exists n, ds, vs, v. auto.
  - destruct Hf as (ds & fs & Hd & Hf). exists OnInputFields. cbn. exists n, fs, f. split; [|auto].
    exists ds, fs. split; [exact Hd|]. now rewrite merged_alone.
Qed.

Lemma named_subtype_textbook : forall a b, sub_type doc a b -> named_subtype doc a b.
Proof.
  intros a b [n|o u dirs k dirs' k' Hd Hin Hd' K|o i dirs k Hd K (w & is & fs & (d' & k' & Hd' & HO & -> & ->) & Hin)].
  - constructor.
  - rewrite merged_alone in Hin by exact HX. destruct k as [|is fs|is fs|ms|vs|fs]; cbn in Hin; try contradiction.
    apply (sub_union doc o u (mktype false u dirs (KUnion ms)) ms); [|reflexivity|exact Hin].
    apply declares_defined; [exact (R TypeNamesUnique)|exact Hd].
  - rewrite merged_alone in Hin by exact HX.
    pose proof (declares_defined doc _ _ _ (R TypeNamesUnique) Hd) as D.
    pose proof (declares_defined doc _ _ _ (R TypeNamesUnique) Hd') as D'.
    destruct k as [|is1 fs1|is1 fs1|ms|vs|fs1]; cbn in K; try contradiction.
    destruct w, k' as [|is2 fs2|is2 fs2|ms2|vs2|fs2]; cbn in HO; try contradiction.
    + eapply sub_object; [exact D|reflexivity|exact D'|reflexivity|exact Hin].
    + eapply sub_interface; [exact D|reflexivity|exact D'|reflexivity|exact Hin].
Qed.

Lemma implementation_type_textbook : forall a b, covariant doc a b -> implementation_type doc a b.
Proof.
  intros a b H. induction H as [a b N H IH|a b H IH|a b H].
  - now apply impl_non_null.
  - now apply impl_list.
  - apply impl_named. now apply named_subtype_textbook.
Qed.

Lemma path_requires : forall fs chain m, input_path doc fs chain m ->
  forall n dirs, declares doc n dirs (KInput fs) -> requires doc n m.
Proof.
  intros fs chain m H. induction H as [fs f m Hf T|fs f k t inner chain m Hf T Ht K P IH]; intros n dirs Hd.
  - apply (requires_field doc n fs f m); [|exact Hf|exact T]. exists dirs, fs. split; [exact Hd|]. now rewrite merged_alone.
  - apply (requires_more doc n k m).
    + apply (requires_field doc n fs f k); [|exact Hf|exact T]. exists dirs, fs. split; [exact Hd|]. now rewrite merged_alone.
    + apply defined_declares in Ht. rewrite K in Ht. now apply (IH k (t_dirs t)).
Qed.

Lemma not_object : forall k, an_object k -> (forall is fs, k <> KObject is fs) -> False.
Proof. intros k K H. destruct k; cbn in K; try contradiction. now apply (H implements fields). Qed.

Theorem valid_no_violation :
  no_borrowed_default doc -> additional_nullable doc -> draft opts = false ->
  forall e, ~ violates opts doc e.
Proof.
  intros HB HA HD e H. destruct e; cbn [violates] in H.
  - destruct H as (HS & dirs & k & Hd & HK). exact (R SpecifiedScalarsOmitted n dirs k Hd HS).
  - destruct H as (HR & t & Ht & <-). exact (R TypeNamesNotReserved t Ht HR).
  - destruct H as (a & x & b & y & c & E & H1 & H2). exact (R TypeNamesUnique n a x b y c E H1 H2).
  - destruct H as (d & Hd & HR). exact (R DirectiveNamesNotReserved d Hd HR).
  - destruct H as (dirs & l & def & HS & H1 & H2 & H3). destruct (site_uses dirs l HS) as (p & Hp).
    pose proof (R (DirectivesNotRepeated p) dirs l d def Hp H1 H2). congruence.
  - destruct H as (dirs & def & HS & H1 & H2 & H3). destruct (site_uses dirs l HS) as (p & Hp).
    exact (H3 (R (DirectiveLocations p) dirs l d def Hp H1 H2)).
  - destruct H as (a & s & b & s' & c & E & H1 & H2). pose proof (R OneSchema a s b s' c E H1). congruence.
  - destruct H as (s & r & r' & Hs & D & H1 & H2). exact (D (HB s r r' n Hs H1 H2)).
  - destruct H as (s & Hs & HR & HU). destruct (proj1 (R RootsAreObjects) s root n Hs HR) as (dirs & k & Hd & _).
    rewrite undefined_none in HU. exact (HU dirs k Hd).
  - destruct H as (s & t & Hs & HR & Ht & HK).
    destruct (proj1 (R RootsAreObjects) s root n Hs HR) as (dirs & k & Hd & K).
    rewrite (declares_kind n dirs k t Hd Ht) in HK. exact (not_object k K HK).
  - destruct H as (HS & HR & t & Ht & HK). apply (not_object (t_kind t)); [|exact HK].
    apply (proj2 (R RootsAreObjects)) with (r := root) (dirs := t_dirs t); [|exact HR|now apply defined_declares].
    intros s Hs. destruct (HS s Hs).
  - destruct H as (is & fs & HI & H). destruct (implementer_has_fields doc t is fs HI) as (o & HO).
    exact (proj1 (nodup_iff is) (R (ImplementsUnique o) t is fs HO) i H).
  - destruct H as (is & fs & HI & Hi & H). destruct (implementer_has_fields doc t is fs HI) as (o & HO).
    destruct (R (ImplementsInterfaces o) t is fs i HO Hi) as (dirs & k & Hd & _).
    destruct (declares_some _ _ _ _ Hd) as (u & Hu). apply (H u). now left.
  - destruct H as (is & fs & u & HI & Hi & Hu & HK). destruct (implementer_has_fields doc t is fs HI) as (o & HO).
    destruct (R (ImplementsInterfaces o) t is fs i HO Hi) as (dirs & k & Hd & K).
    apply resolves_defined in Hu. rewrite (declares_kind i dirs k u Hd Hu) in HK.
    destruct k as [|is1 fs1|is1 fs1|ms|vs|fs1]; cbn in K; try contradiction. exact (HK is1 fs1 eq_refl).
  - destruct H as (is & fs & u & is' & fs' & HI & Hi & Hu & K & H3 & H4).
    destruct (resolved_implementation _ _ _ _ _ _ _ HI Hi Hu K) as (o & HO).
    exact (H4 (R (ImplementsTransitively o) _ _ _ _ _ _ HO i H3)).
  - destruct H as (is & fs & u & is' & fs' & HI & Hi & Hu & K & H3 & H4).
    destruct (resolved_implementation _ _ _ _ _ _ _ HI Hi Hu K) as (o & HO).
    exact (H4 (R (ImplementsFields o) _ _ _ _ _ _ HO f H3)).
  - destruct H as (is & fs & u & is' & fs' & x & y & HI & Hi & Hu & K & H3 & <- & H4 & H5).
    destruct (resolved_implementation _ _ _ _ _ _ _ HI Hi Hu K) as (o & HO).
    apply H5. apply implementation_type_textbook. exact (R (ImplementsCovariantly o) _ _ _ _ _ _ x y HO H3 H4).
  - destruct H as (is & fs & u & is' & fs' & x & y & c & d & HI & Hi & Hu & K & H3 & <- & H4 & H5 & H6 & H7).
    destruct (resolved_implementation _ _ _ _ _ _ _ HI Hi Hu K) as (o & HO). apply H7.
    apply last_with_in in H5, H6. destruct H5 as [H5 E5], H6 as [H6 E6].
    apply (R (ImplementsArgumentTypes o) _ _ _ _ _ _ x y c d HO H3 H4 H5 H6). congruence.
  - destruct H as (is & fs & u & is' & fs' & x & y & c & HI & Hi & Hu & K & H3 & <- & H4 & H5 & H6 & H7).
    destruct (resolved_implementation _ _ _ _ _ _ _ HI Hi Hu K) as (o & HO).
    apply last_with_in in H5. destruct H5 as [H5 E5]. subst a.
    rewrite (HA o _ _ _ _ _ _ x y c HO H3 H4 H5 H6) in H7. discriminate.
  - destruct H as (is & fs & u & is' & fs' & x & y & HI & Hi & Hu & K & H3 & <- & H4 & H5 & H6).
    destruct (resolved_implementation _ _ _ _ _ _ _ HI Hi Hu K) as (o & HO).
    exact (H6 (R (ImplementsArguments o) _ _ _ _ _ _ x y HO H3 H4 a H5)).
  - destruct H as (dirs & is & Hd & HE). apply (R (SomeFields Objects) t is []); [|reflexivity].
    exists dirs, (KObject is []). rewrite !merged_alone by exact HX. cbn. auto.
  - destruct H as (dirs & is & Hd). apply (R (SomeFields Interfaces) t is []); [|reflexivity].
    exists dirs, (KInterface is []). rewrite !merged_alone by exact HX. cbn. auto.
  - destruct H as (dirs & Hd). apply (R SomeInputFields t []); [|reflexivity].
    exists dirs, []. rewrite !merged_alone by exact HX. cbn. auto.
  - destruct H as (HR & x & Hx & <-). destruct (checked_owned doc t x Hx) as (o & HO).
    exact (R (FieldNamesNotReserved o) t x HO HR).
  - destruct H as (dirs & is & fs & Hd & H).
    assert (HF : has_fields doc Objects t is fs).
    { exists dirs, (KObject is fs). rewrite !merged_alone by exact HX. cbn. auto. }
    rewrite no_extension_parts, app_nil_r in H by exact HX.
    exact (proj1 (nodup_iff _) (R (FieldNamesUnique Objects) t is fs HF) f H).
  - destruct H as (x & Hx & <- & H). destruct (checked_owned doc t x Hx) as (o & HO).
    exact (proj1 (nodup_iff _) (R (ArgumentNamesUnique o) t x HO) a H).
  - destruct H as (t & f & a & Ha & HR). destruct (checked_args_owned t f a Ha) as (o & x & HO & _ & Hin).
    exact (R (ArgumentNamesNotReserved o) t x a HO Hin HR).
  - destruct H as (H & _). congruence.
  - destruct H as (HB' & HU & t & HN & HP).
    assert (HT : input_type doc n \/ output_type doc n).
    { destruct HP as [HP|[HP _]]; [left; exact (input_ok t at_ n HP HN)|right; exact (output_ok t at_ n HP HN)]. }
    rewrite undefined_none in HU.
    destruct HT as [[HS|(dirs & k & Hd & _)]|[HS|(dirs & k & Hd & _)]]; try contradiction; exact (HU dirs k Hd).
  - destruct H as (HB' & t & u & HN & HP & Hu & K1 & K2 & K3).
    destruct (input_ok t at_ n HP HN) as [HS|(dirs & k & Hd & K)]; [contradiction|].
    rewrite (declares_kind n dirs k u Hd Hu) in K1, K2, K3. destruct k as [|is fs|is fs|ms|vs|fs]; try contradiction.
    + now apply (K2 vs).
    + now apply (K3 fs).
  - destruct H as (HB' & t & u & fs & HN & HP & Hu & K).
    destruct (output_ok t at_ n HP HN) as [HS|(dirs & k & Hd & K')]; [contradiction|].
    apply resolves_defined in Hu. rewrite (declares_kind n dirs k u Hd Hu) in K. exact (K' fs K).
  - destruct H as (dirs & vs & Hd & H). exact (proj1 (nodup_iff _) (R ValuesUnique t dirs vs Hd) v H).
  - destruct H as (dirs & fs & Hd & HP). apply (R NoInputCycles t). exact (path_requires fs chain t HP t dirs Hd).
  - destruct H as (HU & dirs & ms & Hd & H). destruct (R MembersObjects u dirs ms m Hd H) as (d' & k & Hd' & _).
    rewrite undefined_none in HU. exact (HU d' k Hd').
  - destruct H as ((t & Ht & HK) & dirs & ms & Hd & H).
    destruct (R MembersObjects u dirs ms m Hd H) as (d' & k & Hd' & K).
    rewrite (declares_kind m d' k t Hd' Ht) in HK. exact (not_object k K HK).
  - destruct H as (dirs & ms & Hd & H). exact (proj1 (nodup_iff _) (R MembersUnique u dirs ms Hd) m H).
  - destruct H as (_ & _ & (dirs & knd & Hx & _) & _). pose proof (proj1 HX _ Hx). discriminate.
Qed.

Lemma valid_not_none : validate opts doc <> None.
Proof.
  intros H. apply validate_none in H. destruct H as (n & dirs & vs & Hd & (i & j & v & Hij & H1 & H2 & _)).
  apply (proj1 (nodup_iff _) (R ValuesUnique n dirs vs Hd) v).
  exact (nth_error_twice _ i j v Hij H1 H2).
Qed.

End Valid.

(* Documents without extensions that obey every rule of the specification are
   accepted, but for the two exceptions. *)
Theorem C63_accepts_partial : forall opts doc,
  obeys_specification doc -> no_extensions doc ->
  no_borrowed_default doc -> additional_nullable doc -> draft opts = false ->
  validate opts doc = Some [].
Proof.
  intros opts doc R HX HB HA HD. apply C61_accepted. split.
  - now apply valid_not_none.
  - now apply valid_no_violation.
Qed.

(* ------------------------------------------------- valid but not accepted *)

(* `schema { query: Mutation } type Mutation { a: Int }` *)
Definition borrowed : document :=
  [DSchema (mkschema false [] (Some "Mutation") None None); def "Mutation" (KObject [] [an_int "a"])].

Theorem C63_borrowed_default_refuted : exists doc,
  obeys_specification doc /\ no_extensions doc /\ additional_nullable doc /\
  forall opts, validate opts doc = Some [RootTwice "Mutation"].
Proof.
  exists borrowed. split; [refine (check_ok _ _); reflexivity|]. split; [apply extends_nothing_iff; reflexivity|].
  split.
  - intros o n i is is' fs fs' x y a H. exfalso. apply implementations_in in H. destruct o; cbn in H; exact H.
  - intros [[] []]; reflexivity.
Qed.

(* `interface I { a: Int } type T implements I { a(x: Int! = 1): Int }` *)
Definition defaulted : document :=
  [query; def "I" (KInterface [] [an_int "a"]);
   def "T" (KObject ["I"] [with_args "a" [mkinput "x" (Named "Int" false) true []]])].

Theorem C63_defaulted_argument_refuted : exists doc,
  obeys_specification doc /\ no_extensions doc /\ no_borrowed_default doc /\
  forall opts, validate opts doc = Some [ArgumentRequired "T" "a" "x" "I"].
Proof.
  exists defaulted. split; [refine (check_ok _ _); reflexivity|]. split; [apply extends_nothing_iff; reflexivity|].
  split.
  - intros s r r' n Hs. not_in_doc Hs.
  - intros [[] []]; reflexivity.
Qed.

(* `union U = B  extend union U = A  interface I { u: U }
   type T implements I { u: A }` *)
Definition member_added : document :=
  [query; def "A" (KObject [] [an_int "a"]); def "B" (KObject [] [an_int "a"]);
   def "U" (KUnion ["B"]); ext "U" (KUnion ["A"]);
   def "I" (KInterface [] [mkfield "u" [] (Named "U" true) []]);
   def "T" (KObject ["I"] [mkfield "u" [] (Named "A" true) []])].

(* `extend type A implements N`: the same with an interface *)
Definition implements_added : document :=
  [query; def "N" (KInterface [] [an_int "a"]);
   def "A" (KObject [] [an_int "a"]); ext "A" (KObject ["N"] []);
   def "I" (KInterface [] [mkfield "n" [] (Named "N" true) []]);
   def "T" (KObject ["I"] [mkfield "n" [] (Named "A" true) []])].

Theorem C63_extended_subtype_refuted : exists doc doc',
  obeys_specification doc /\ obeys_specification doc' /\
  forall opts, validate opts doc = Some [BadFieldType "T" "u" "I"] /\
               validate opts doc' = Some [BadFieldType "T" "n" "I"].
Proof.
  exists member_added, implements_added.
  split; [refine (check_ok _ _); reflexivity|]. split; [refine (check_ok _ _); reflexivity|].
  intros [[] []]; split; reflexivity.
Qed.

(* ------------------------------------------------------------ an example *)

Definition nullable_arg (a : name) : input_value := mkinput a (Named "Filter" true) false [].

(* a schema with every kind of type *)
Definition shop : document :=
  [DSchema (mkschema false [] (Some "Root") (Some "Change") None);
   def "Root" (KObject [] [mkfield "node" [mkinput "id" (Named "ID" false) false []] (Named "Node" true) [];
                           mkfield "all" [nullable_arg "f"] (ListOf (Named "Product" false) false) []]);
   def "Change" (KObject [] [mkfield "add" [mkinput "n" (Named "Int" false) true []] (Named "Product" true) []]);
   def "Node" (KInterface [] [mkfield "id" [] (Named "ID" false) []]);
   def "Priced" (KInterface ["Node"] [mkfield "id" [] (Named "ID" false) []; mkfield "price" [] (Named "Money" true) []]);
   def "Product" (KObject ["Node"; "Priced"]
     [mkfield "id" [] (Named "ID" false) []; mkfield "price" [nullable_arg "f"] (Named "Money" false) [];
      mkfield "kind" [] (Named "Kind" true) []; mkfield "with" [] (ListOf (Named "Any" true) true) []]);
   def "Any" (KUnion ["Product"; "Root"]);
   def "Kind" (KEnum [("BOOK", []); ("PEN", [])]);
   def "Money" KScalar;
   def "Filter" (KInput [arg "kind" "Kind"; arg "inner" "Filter"])].

Example C63_example :
  obeys_specification shop /\ validate (mkoptions false false) shop = Some [].
Proof.
  assert (HO : obeys_specification shop) by (refine (check_ok _ _); reflexivity).
  split; [exact HO|]. apply C63_accepts_partial.
  - exact HO.
  - apply extends_nothing_iff. reflexivity.
  - intros s r r' n Hs HR HR'. cbn in Hs. destruct Hs as [E|Hs]; [injection E as <-|not_in_doc Hs].
    apply root_name_iff in HR, HR'. cbn in HR, HR'. intuition congruence.
  - intros o n i is is' fs fs' x y a HF Hy Hx Ha HN.
    assert (ST : forallb (implements_well shop true) (implementations shop o) = true) by (destruct o; reflexivity).
    pose proof (fits_ok _ _ _ _ _ _ _ _ _ _ _ ST HF Hy Hx) as X.
    unfold fits in X. rewrite !andb_true_iff in X. destruct X as [_ X]. rewrite forallb_forall in X. specialize (X a Ha).
    apply andb_true_iff in X. destruct X as [_ X]. rewrite !orb_true_iff in X. rewrite existsb_eqb in X.
    destruct X as [[X|X]|X]; [contradiction|exact X|discriminate].
  - reflexivity.
Qed.

(* What C62 says of the same document. *)
Example C62_example :
  holds (ImplementsCovariantly Objects) shop /\ holds NoInputCycles shop /\ holds (DirectiveLocations (OnFields Interfaces)) shop.
Proof.
  assert (HX : no_extensions shop) by (apply extends_nothing_iff; reflexivity).
  split; [|split]; apply (C62_without_extensions (mkoptions false false)); (exact HX || discriminate || apply C63_example).
Qed.
