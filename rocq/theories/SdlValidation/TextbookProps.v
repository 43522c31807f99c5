(* C62: which rules of the specification accepted documents obey. *)
From Coq Require Import Ascii String List Bool Arith Lia.
From Verif.SdlValidation Require Import Model Spec Facts CheckFacts CycleFacts DocFacts ReportProps Textbook TextbookFacts.
Import ListNotations.
Local Open Scope string_scope.
Local Open Scope list_scope.

Lemma owned_level : forall doc o n f,
  at_owner o = Enforced \/ (at_owner o = WithoutExtensions /\ no_extensions doc) ->
  owned doc o n f -> checked_field doc n f.
Proof.
  intros doc [] n f HL H.
  - now apply owned_object.
  - destruct HL as [HL|[_ HX]]; [discriminate|]. now apply (owned_checked doc Interfaces).
Qed.

Lemma accepted_rules : forall opts doc r,
  (forall e, ~ violates opts doc e) ->
  (needs_definitions r = true -> forbid_unknown opts = true \/ no_extensions doc) ->
  enforcement r = Enforced \/ (enforcement r = WithoutExtensions /\ no_extensions doc) ->
  holds r doc.
Proof.
  intros opts doc r OK F HL.
  assert (HX : enforcement r = WithoutExtensions -> no_extensions doc).
  { intros E. destruct HL as [HL|[_ HL]]; [congruence|exact HL]. }
  destruct r as [| | | | | | | | |o|o|o|o|o|o|o|o|o| |o|o|o|o|o|o| | | | | | | | | | | | | | |p|p|p]; cbn [holds enforcement needs_definitions] in *;
    try specialize (F eq_refl).
  - exact (acc_unique opts doc OK).
  - intros t Ht HR. apply (OK (DoubleUnderscore (t_name t))). cbn [violates]. split; [exact HR|]. eauto.
  - intros a s b s' c E X. destruct (s_extend s') eqn:X'; [reflexivity|].
    exfalso. apply (OK DuplicateSchema). cbn [violates]. exists a, s, b, s', c. auto.
  - specialize (HX eq_refl). split.
    + intros s r n Hs HR. apply acc_object.
      * intros (u & Hu & HK). apply (OK (RootNotObject r n)). cbn [violates]. exists s, u. auto.
      * intros HU. apply (OK (RootUnknown r n)). cbn [violates]. exists s. auto.
    + intros HE r dirs k HR Hd. destruct (kind_object_dec k) as [K|K]; [exact K|]. exfalso.
      apply (OK (RootShouldBeObject r)). cbn [violates]. split.
      { intros s Hs. pose proof (HE s Hs) as X. rewrite (proj2 HX s Hs) in X. discriminate. }
      split; [exact HR|]. exists (mktype false r dirs k). split; [|exact K].
      now apply (acc_defined opts doc OK).
  - specialize (HX eq_refl). intros s s' r r' n Hs Hs' HR HR'.
    assert (E : s = s').
    { pose proof (proj2 HX s Hs) as X. pose proof (proj2 HX s' Hs') as X'.
      apply in_split in Hs. destruct Hs as (a & b & E).
      rewrite E, in_app_iff in Hs'. cbn [In] in Hs'. destruct Hs' as [Hs'|[Hs'|Hs']].
      - exfalso. apply in_split in Hs'. destruct Hs' as (u & v & ->). apply (OK DuplicateSchema). cbn [violates].
        exists u, s', v, s, b. rewrite <- app_assoc in E. auto.
      - now injection Hs' as ->.
      - exfalso. apply in_split in Hs'. destruct Hs' as (u & v & ->). apply (OK DuplicateSchema). cbn [violates].
        exists a, s, u, s', v. auto. }
    subst s'. destruct (string_dec r r') as [->|D]; [reflexivity|]. exfalso.
    apply (OK (RootTwice n)). cbn [violates]. exists s, r, r'. split; [exact Hs|]. split; [exact D|].
    split; exists (Some n); auto.
  - destruct HL as [HL|[HL _]]; discriminate.
  - intros n dirs k Hx.
    assert (HA : forall x, extends_as k x -> (x = XScalar -> ~ specified_scalar n) ->
                 ~ not_of_kind doc n (fun knd => extends_as knd x)).
    { intros x HK HS HN. destruct F as [F|X].
      - apply (OK (ExtendUnknown x n)). cbn [violates]. split; [exact F|]. split; [exact HS|]. split; [|exact HN].
        exists dirs, k. auto.
      - pose proof (proj1 X _ Hx) as E. discriminate. }
    assert (HD : exists x, extends_as k x /\ (x = XScalar <-> k = KScalar) /\
                 forall k', extends_as k' x -> type_location k' = type_location k).
    { destruct k as [|is fs|is fs|ms|vs|fs];
        [exists XScalar|exists XObject|exists XInterface|exists XUnion|exists XEnum|exists XInput];
        (split; [econstructor; reflexivity|]); (split; [split; [discriminate|discriminate]||tauto|]);
        intros k' HK; inversion HK; subst; reflexivity. }
    destruct HD as (x & HK & HS & HT).
    assert (DN : (exists dirs' k', declares doc n dirs' k' /\ extends_as k' x) \/
                 not_of_kind doc n (fun knd => extends_as knd x)).
    { destruct (defined_dec doc n) as [(u & Hu)|Hu].
      - assert (D : extends_as (t_kind u) x \/ ~ extends_as (t_kind u) x).
        { destruct x, (t_kind u); try (left; econstructor; reflexivity); right; intros Z; inversion Z; congruence. }
        destruct D as [D|D].
        + left. exists (t_dirs u), (t_kind u). split; [now apply defined_declares|exact D].
        + right. intros v Hv. now rewrite (defined_unique _ _ _ _ Hv Hu).
      - right. intros v Hv. destruct (Hu v Hv). }
    destruct DN as [(d' & k' & Hd & HE)|HN].
    + right. exists d', k'. auto.
    + left. destruct (is_builtin_scalar n) eqn:B.
      * apply builtin_iff in B. split; [|exact B].
        destruct (is_scalar k) eqn:SK; [destruct k; try discriminate; reflexivity|].
        exfalso. apply (HA x HK); [|exact HN]. intros EX. apply HS in EX. subst k. discriminate.
      * apply builtin_false_iff in B. exfalso. apply (HA x HK); auto.
  - intros n dirs k Hd HS. destruct (is_scalar k) eqn:K; [destruct k; try discriminate; reflexivity|].
    exfalso. apply (OK (ReservedName n)). cbn [violates]. split; [exact HS|]. exists dirs, k. split; [exact Hd|].
    intros ->. discriminate.
  - destruct HL as [HL|[HL _]]; discriminate.
  - intros n is fs (dirs & k & Hd & HO & -> & ->) E. apply app_eq_nil in E. destruct E as [E E'].
    destruct o, k as [|is0 fs0|is0 fs0|ms|vs|fs0]; cbn in HO; try contradiction; cbn in E; subst fs0.
    + apply (OK (EmptyObject n)). cbn [violates]. exists dirs, is0. auto.
    + apply (OK (EmptyInterface n)). cbn [violates]. exists dirs, is0. auto.
  - destruct o; [|destruct HL as [HL|[HL _]]; discriminate].
    intros n is fs (dirs & k & Hd & HO & -> & ->). apply nodup_iff. intros f Hf.
    destruct k as [|is0 fs0|is0 fs0|ms|vs|fs0]; cbn in HO; try contradiction.
    apply (OK (DuplicateField n f)). cbn [violates]. exists dirs, is0, fs0. auto.
  - intros n f Hf HR. apply (OK (FieldName n (f_name f))). cbn [violates]. split; [exact HR|]. exists f.
    split; [|reflexivity]. now apply (owned_level doc o).
  - intros n f m Hf HN. apply (acc_output opts doc OK F (f_type f) (AtField n (f_name f))); [|exact HN].
    exists n, f. split; [|auto]. now apply (owned_level doc o).
  - intros n f Hf. apply (acc_args_unique opts doc OK n). now apply (owned_level doc o).
  - intros n f a Hf Ha HR. apply (OK ArgumentName). cbn [violates]. exists n, (f_name f), a. split; [|exact HR].
    exists f. split; [now apply (owned_level doc o)|auto].
  - intros n f a m Hf Ha HN.
    apply (acc_input opts doc OK (iv_type a) (AtArgument n (f_name f) (iv_name a))); [|exact HN].
    constructor. exists f. split; [now apply (owned_level doc o)|auto].
  - intros n is fs H. apply nodup_iff. intros i Hi. apply (OK (DuplicateImplements n i)). cbn [violates].
    exists is, fs. split; [now apply (has_fields_implementer doc o)|exact Hi].
  - intros n is fs i H Hi. apply (acc_interface opts doc OK F n is fs i); [|exact Hi].
    now apply (has_fields_implementer doc o).
  - destruct HL as [HL|[HL _]]; discriminate.
  - specialize (HX eq_refl). intros n i is is' fs fs' H j Hj.
    destruct (implementation_facts opts doc OK o n i is is' fs fs' HX H) as (H1 & H2 & u & H3 & H4).
    destruct (in_dec string_dec j is) as [D|D]; [exact D|]. exfalso.
    apply (OK (MissingTransitive n j i)). cbn [violates]. exists is, fs, u, is', fs'. auto 6.
  - specialize (HX eq_refl). intros n i is is' fs fs' H f Hf.
    destruct (implementation_facts opts doc OK o n i is is' fs fs' HX H) as (H1 & H2 & u & H3 & H4).
    destruct (in_dec string_dec f (map f_name fs)) as [D|D]; [exact D|]. exfalso.
    apply (OK (MissingField n f i)). cbn [violates]. exists is, fs, u, is', fs'. auto 6.
  - specialize (HX eq_refl). intros n i is is' fs fs' x y H Hy Hx.
    destruct (implementation_facts opts doc OK o n i is is' fs fs' HX H) as (H1 & H2 & u & H3 & H4).
    apply (covariant_textbook opts doc OK); [exact HX|].
    destruct (implementation_type_dec doc (f_type x) (f_type y)) as [D|D]; [exact D|]. exfalso.
    apply (OK (BadFieldType n (f_name y) i)). cbn [violates]. exists is, fs, u, is', fs', x, y. auto 8.
  - specialize (HX eq_refl). intros n i is is' fs fs' x y H Hy Hx a Ha.
    destruct (implementation_facts opts doc OK o n i is is' fs fs' HX H) as (H1 & H2 & u & H3 & H4).
    destruct (in_dec string_dec a (map iv_name (f_args x))) as [D|D]; [exact D|]. exfalso.
    apply (OK (ArgumentMissing n (f_name y) a i)). cbn [violates]. exists is, fs, u, is', fs', x, y. auto 10.
  - specialize (HX eq_refl). intros n i is is' fs fs' x y a b H Hy Hx Ha Hb E.
    pose proof (proj1 H) as HF. pose proof (proj2 (proj2 H)) as HF'.
    destruct (implementation_facts opts doc OK o n i is is' fs fs' HX H) as (H1 & H2 & u & H3 & H4).
    pose proof (first_in _ _ _ Hx) as [Xin _].
    assert (Ux : NoDup (map iv_name (f_args x))).
    { apply (acc_args_unique opts doc OK n). apply (owned_checked doc o); [exact HX|].
      eapply implementer_owned; eauto. }
    assert (Uy : NoDup (map iv_name (f_args y))).
    { apply (acc_args_unique opts doc OK i). apply (owned_checked doc Interfaces); [exact HX|].
      eapply implementer_owned; eauto. }
    pose proof (last_by_name _ _ Ux Ha) as La. pose proof (last_by_name _ _ Uy Hb) as Lb. rewrite <- E in Lb.
    destruct (ty_eqb (iv_type a) (iv_type b)) eqn:T; [now apply ty_eqb_eq|]. exfalso.
    apply (OK (ArgumentType n (f_name y) (iv_name a) i)). cbn [violates].
    exists is, fs, u, is', fs', x, y, a, b. repeat (split; [first [assumption|reflexivity]|]).
    intros T'. rewrite T' in T. rewrite (proj2 (ty_eqb_eq _ _) eq_refl) in T. discriminate.
  - specialize (HX eq_refl). intros n i is is' fs fs' x y a H Hy Hx Ha HN.
    pose proof (proj1 H) as HF.
    destruct (implementation_facts opts doc OK o n i is is' fs fs' HX H) as (H1 & H2 & u & H3 & H4).
    pose proof (first_in _ _ _ Hx) as [Xin _].
    assert (Ux : NoDup (map iv_name (f_args x))).
    { apply (acc_args_unique opts doc OK n). apply (owned_checked doc o); [exact HX|].
      eapply implementer_owned; eauto. }
    pose proof (last_by_name _ _ Ux Ha) as La.
    destruct (nullable (iv_type a)) eqn:T; [now left|]. exfalso.
    apply (OK (ArgumentRequired n (f_name y) (iv_name a) i)). cbn [violates].
    exists is, fs, u, is', fs', x, y, a. auto 10.
  - intros n dirs ms m Hd Hm. eapply (acc_members opts doc OK); eauto.
  - intros n dirs ms Hd. apply nodup_iff. intros m Hm. apply (OK (UnionDuplicate n m)). cbn [violates].
    exists dirs, ms. auto.
  - intros n dirs vs Hd. apply nodup_iff. intros v Hv. apply (OK (DuplicateEnumValue n v)). cbn [violates].
    exists dirs, vs. auto.
  - intros n fs (dirs & fs0 & Hd & ->) E. apply app_eq_nil in E. destruct E as [E _]. cbn in E. subst fs0.
    apply (OK (EmptyInput n)). cbn [violates]. eauto.
  - destruct HL as [HL|[HL _]]; discriminate.
  - destruct HL as [HL|[HL _]]; discriminate.
  - specialize (HX eq_refl). intros n fs f m (dirs & fs0 & Hd & ->) Hf HN.
    rewrite merged_alone in Hf by exact HX.
    apply (acc_input opts doc OK (iv_type f) (AtField n (iv_name f))); [|exact HN].
    constructor. exists dirs, fs0. auto.
  - specialize (HX eq_refl). intros n H.
    destruct (requires_path opts doc OK n n HX H) as (dirs & fs & chain & Hd & HP).
    apply (OK (InputCycle n chain)). cbn [violates]. eauto.
  - destruct HL as [HL|[HL _]]; discriminate.
  - intros d Hd HR. apply (OK DirectiveName). cbn [violates]. eauto.
  - destruct HL as [HL|[HL _]]; discriminate.
  - destruct HL as [HL|[HL _]]; discriminate.
  - intros d a m Hd Ha HN.
    apply (acc_input opts doc OK (iv_type a) (AtDirective (d_name d) (iv_name a))); [|exact HN]. now constructor.
  - destruct HL as [HL|[HL _]]; discriminate.
  - destruct p; try (destruct HL as [HL|[HL _]]; discriminate).
    specialize (HX eq_refl). intros dirs l d (n & Hn & _) _. pose proof (proj1 HX _ Hn) as E. discriminate.
  - intros dirs l d def HU Hd HD. apply (acc_locations opts doc OK dirs l d def); [|exact Hd|exact HD].
    now apply (uses_site doc p).
  - intros dirs l d def HU Hd HD. apply (acc_repeated opts doc OK dirs l d def); [|exact Hd|exact HD].
    now apply (uses_site doc p).
Qed.

(* ------------------------------------------------------------ what is not *)

(* The documents that follow are small; `T` stands for what a rule is about. *)
Definition an_int (f : name) : field := mkfield f [] (Named "Int" true) [].
Definition with_args (f : name) (args : list input_value) : field := mkfield f args (Named "Int" true) [].
Definition arg (a t : name) : input_value := mkinput a (Named t true) false [].
Definition type_of (o : owner) (is : list name) (fs : list field) : kind :=
  match o with Objects => KObject is fs | Interfaces => KInterface is fs end.
Definition def (n : name) (k : kind) : definition := DType (mktype false n [] k).
Definition ext (n : name) (k : kind) : definition := DType (mktype true n [] k).
Definition query : definition := def "Query" (KObject [] [an_int "a"]).

(* `directive @d on QUERY` *)
Definition on_query : dirdef := mkdir "d" false [LQuery] [].
(* `directive @d on LOCATION` *)
Definition once (l : location) : dirdef := mkdir "d" false [l] [].

(* directives at a position, on something that an extension adds if it may *)
Definition placed (p : position) (ds : list name) : document :=
  match p with
  | OnSchema => [DSchema (mkschema false ds (Some "Query") None None)]
  | OnScalars => [DType (mktype false "T" ds KScalar)]
  | OnScalarExtensions => [def "T" KScalar; DType (mktype true "T" ds KScalar)]
  | OnObjects => [DType (mktype false "T" ds (KObject [] [an_int "a"]))]
  | OnInterfaces => [DType (mktype false "T" ds (KInterface [] [an_int "a"]))]
  | OnUnions => [DType (mktype false "T" ds (KUnion ["Query"]))]
  | OnEnums => [DType (mktype false "T" ds (KEnum [("A", [])]))]
  | OnInputs => [DType (mktype false "T" ds (KInput [arg "a" "Int"]))]
  | OnFields o => [def "T" (type_of o [] [mkfield "a" [] (Named "Int" true) ds])]
  | OnArguments o => [def "T" (type_of o [] [with_args "a" [mkinput "x" (Named "Int" true) false ds]])]
  | OnValues => [def "T" (KEnum [("A", ds)])]
  | OnInputFields => [def "T" (KInput [mkinput "x" (Named "Int" true) false ds])]
  | OnDirectiveArguments => [DDirective (mkdir "e" false [LQuery] [mkinput "x" (Named "Int" true) false ds])]
  end.

Definition placed_by_extension (p : position) (ds : list name) : document :=
  match p with
  | OnFields o => [def "T" (type_of o [] [an_int "a"]); ext "T" (type_of o [] [mkfield "b" [] (Named "Int" true) ds])]
  | OnArguments o =>
      [def "T" (type_of o [] [an_int "a"]);
       ext "T" (type_of o [] [with_args "b" [mkinput "x" (Named "Int" true) false ds]])]
  | OnInputFields => [def "T" (KInput [arg "a" "Int"]); ext "T" (KInput [mkinput "x" (Named "Int" true) false ds])]
  | _ => placed p ds
  end.

Definition position_location (p : position) : location :=
  match p with
  | OnSchema => LSchema | OnScalars | OnScalarExtensions => LScalar | OnObjects => LObject
  | OnInterfaces => LInterface | OnUnions => LUnion | OnEnums => LEnum | OnInputs => LInputObject
  | OnFields _ => LFieldDefinition | OnArguments _ | OnDirectiveArguments => LArgumentDefinition
  | OnValues => LEnumValue | OnInputFields => LInputFieldDefinition
  end.

(* an interface and something that implements it, with what extends it *)
Definition extended_interface (o : owner) (added : kind) (fs : list field) : document :=
  [query; def "I" (KInterface [] [an_int "a"]); def "J" (KInterface [] [an_int "a"]); ext "I" added;
   def "T" (type_of o ["I"] (an_int "a" :: fs))].

(* A document that breaks the rule and is accepted. *)
Definition counterexample (r : rule) : document :=
  match r with
  | RootsAreObjects => [def "Query" KScalar; DSchema (mkschema true ["link"] None None None)]
  | RootsDistinct =>
      [query; DSchema (mkschema false [] (Some "Query") None None);
       DSchema (mkschema true [] (Some "T") (Some "Query") None); def "T" (KObject [] [an_int "a"])]
  | QueryRootExists => [def "T" KScalar]
  | SpecifiedScalarsOmitted => [query; def "String" KScalar]
  | FieldNamesUnique _ => [query; def "T" (KInterface [] [an_int "a"; an_int "a"])]
  | FieldNamesNotReserved o => [query; def "T" (type_of o [] [an_int "a"]); ext "T" (type_of o [] [an_int "__b"])]
  | FieldTypesOutput o =>
      [query; def "T" (type_of o [] [an_int "a"]);
       ext "T" (type_of o [] [mkfield "b" [] (Named "Unknown" true) []])]
  | ArgumentNamesUnique o =>
      [query; def "T" (type_of o [] [an_int "a"]); ext "T" (type_of o [] [with_args "b" [arg "x" "Int"; arg "x" "Int"]])]
  | ArgumentNamesNotReserved o =>
      [query; def "T" (type_of o [] [an_int "a"]); ext "T" (type_of o [] [with_args "b" [arg "__x" "Int"]])]
  | ArgumentTypesInput o =>
      [query; def "T" (type_of o [] [an_int "a"]); ext "T" (type_of o [] [with_args "b" [arg "x" "Query"]])]
  | ImplementsNotItself => [query; def "T" (KInterface ["T"] [an_int "a"])]
  | ImplementsTransitively o => extended_interface o (KInterface ["J"] []) []
  | ImplementsFields o => extended_interface o (KInterface [] [an_int "b"]) []
  | ImplementsCovariantly o =>
      extended_interface o (KInterface [] [an_int "b"]) [mkfield "b" [] (Named "String" true) []]
  | ImplementsArguments o => extended_interface o (KInterface [] [with_args "b" [arg "x" "Int"]]) [an_int "b"]
  | ImplementsArgumentTypes o =>
      extended_interface o (KInterface [] [with_args "b" [arg "x" "Int"]]) [with_args "b" [arg "x" "String"]]
  | AdditionalArgumentsOptional o =>
      extended_interface o (KInterface [] [an_int "b"]) [with_args "b" [mkinput "x" (Named "Int" false) false []]]
  | InputFieldNamesUnique => [query; def "T" (KInput [arg "a" "Int"; arg "a" "Int"])]
  | InputFieldNamesNotReserved => [query; def "T" (KInput [arg "__a" "Int"])]
  | InputFieldTypesInput => [query; def "T" (KInput [arg "a" "Int"]); ext "T" (KInput [arg "b" "Query"])]
  | NoInputCycles =>
      [query; def "T" (KInput [arg "a" "Int"]); ext "T" (KInput [mkinput "b" (Named "T" false) false []])]
  | DirectiveNamesUnique => [query; DDirective (once LObject); DDirective (once LObject)]
  | DirectiveArgumentNamesUnique => [query; DDirective (mkdir "d" false [LQuery] [arg "x" "Int"; arg "x" "Int"])]
  | DirectiveArgumentNamesNotReserved => [query; DDirective (mkdir "d" false [LQuery] [arg "__x" "Int"])]
  | DirectivesNotRecursive =>
      [query; DDirective (mkdir "d" false [LArgumentDefinition] [mkinput "x" (Named "Int" true) false ["d"]])]
  | DirectivesDefined p => query :: placed p ["unknown"]
  | DirectiveLocations p => query :: DDirective on_query :: placed_by_extension p ["d"]
  | DirectivesNotRepeated p => query :: DDirective (once (position_location p)) :: placed_by_extension p ["d"; "d"]
  | _ => []
  end.

Ltac in_doc := unfold declares, extends; cbn; repeat (first [left; reflexivity | right]).

Lemma has_interface : forall doc n dirs is fs,
  declares doc n dirs (KInterface is fs) ->
  has_fields doc Interfaces n (merged implements_part doc n (KInterface is fs))
    (merged fields_part doc n (KInterface is fs)).
Proof. intros doc n dirs is fs H. exists dirs, (KInterface is fs). cbn. auto. Qed.

Lemma has_type_of : forall doc o n dirs is fs,
  declares doc n dirs (type_of o is fs) ->
  has_fields doc o n (merged implements_part doc n (type_of o is fs)) (merged fields_part doc n (type_of o is fs)).
Proof. intros doc o n dirs is fs H. exists dirs, (type_of o is fs). destruct o; cbn; auto. Qed.

Lemma owned_type_of : forall doc o n dirs is fs f,
  declares doc n dirs (type_of o is fs) -> In f (merged fields_part doc n (type_of o is fs)) -> owned doc o n f.
Proof. intros doc o n dirs is fs f H Hf. exists dirs, (type_of o is fs). destruct o; cbn; auto. Qed.

Lemma extended_implementation : forall o is fs0 fs,
  implementation (extended_interface o (KInterface is fs0) fs) o "T" "I" ["I"] is
    (an_int "a" :: fs) (an_int "a" :: fs0).
Proof.
  intros o is fs0 fs. split.
  - exists [], (type_of o ["I"] (an_int "a" :: fs)). split; [in_doc|].
    destruct o; (split; [exact Logic.I|]); unfold merged; cbn; now rewrite !app_nil_r.
  - split; [now left|]. exists [], (KInterface [] [an_int "a"]). split; [in_doc|]. split; [exact Logic.I|].
    unfold merged; cbn; now rewrite !app_nil_r.
Qed.

(* the second field of the implementer *)
Lemma the_second : forall f x, f <> "a" -> f_name x = f -> the_field [an_int "a"; x] f x.
Proof.
  intros f x D E. exists [an_int "a"], []. split; [reflexivity|]. split; [exact E|].
  constructor; [|constructor]. cbn. congruence.
Qed.

Lemma directive_first : forall doc d,
  (forall e, In (DDirective e) doc -> d_name e <> d_name d) ->
  directive_defined (query :: DDirective d :: doc) (d_name d) d.
Proof.
  intros doc d H. exists [query], doc. split; [reflexivity|]. split; [exists d; auto|].
  apply Forall_forall. intros x Hx (e & -> & E). exact (H e Hx E).
Qed.

Lemma b_a : "b" <> "a".
Proof. discriminate. Qed.

Ltac in_merged := unfold merged; cbn; repeat (first [left; reflexivity | right]).
Ltac not_in_doc H := cbn in H; repeat (destruct H as [H|H]; [discriminate H|]); try contradiction.

Lemma uses_placed : forall p ds, uses (query :: placed p ds) p ds (position_location p).
Proof.
  intros p ds. destruct p as [| | | | | | | |o|o| | |]; cbn [placed uses position_location]; cbv zeta.
  - eexists. split; [in_doc|]. auto.
  - exists "T". split; [in_doc|reflexivity].
  - exists "T". split; [in_doc|reflexivity].
  - exists (mktype false "T" ds (KObject [] [an_int "a"])). split; [in_doc|]. auto.
  - exists (mktype false "T" ds (KInterface [] [an_int "a"])). split; [in_doc|]. auto.
  - exists (mktype false "T" ds (KUnion ["Query"])). split; [in_doc|]. auto.
  - exists (mktype false "T" ds (KEnum [("A", [])])). split; [in_doc|]. auto.
  - exists (mktype false "T" ds (KInput [arg "a" "Int"])). split; [in_doc|]. auto.
  - exists "T", (mkfield "a" [] (Named "Int" true) ds). split; [|auto].
    eapply owned_type_of; [in_doc|]. destruct o; in_merged.
  - exists "T", (with_args "a" [mkinput "x" (Named "Int" true) false ds]), (mkinput "x" (Named "Int" true) false ds).
    split; [|split; [now left|auto]]. eapply owned_type_of; [in_doc|]. destruct o; in_merged.
  - exists "T", [], [("A", ds)], ("A", ds). split; [in_doc|]. split; [in_merged|auto].
  - exists "T", [mkinput "x" (Named "Int" true) false ds], (mkinput "x" (Named "Int" true) false ds).
    split; [|split; [now left|auto]]. exists [], [mkinput "x" (Named "Int" true) false ds]. split; [in_doc|reflexivity].
  - exists (mkdir "e" false [LQuery] [mkinput "x" (Named "Int" true) false ds]), (mkinput "x" (Named "Int" true) false ds).
    split; [in_doc|]. split; [now left|auto].
Qed.

Lemma uses_placed_by_extension : forall p d ds,
  uses (query :: DDirective d :: placed_by_extension p ds) p ds (position_location p).
Proof.
  intros p d ds. destruct p as [| | | | | | | |o|o| | |]; cbn [placed_by_extension placed uses position_location]; cbv zeta.
  - eexists. split; [in_doc|]. auto.
  - exists "T". split; [in_doc|reflexivity].
  - exists "T". split; [in_doc|reflexivity].
  - exists (mktype false "T" ds (KObject [] [an_int "a"])). split; [in_doc|]. auto.
  - exists (mktype false "T" ds (KInterface [] [an_int "a"])). split; [in_doc|]. auto.
  - exists (mktype false "T" ds (KUnion ["Query"])). split; [in_doc|]. auto.
  - exists (mktype false "T" ds (KEnum [("A", [])])). split; [in_doc|]. auto.
  - exists (mktype false "T" ds (KInput [arg "a" "Int"])). split; [in_doc|]. auto.
  - exists "T", (mkfield "b" [] (Named "Int" true) ds). split; [|auto].
    eapply owned_type_of; [in_doc|]. destruct o; in_merged.
  - exists "T", (with_args "b" [mkinput "x" (Named "Int" true) false ds]), (mkinput "x" (Named "Int" true) false ds).
    split; [|split; [now left|auto]]. eapply owned_type_of; [in_doc|]. destruct o; in_merged.
  - exists "T", [], [("A", ds)], ("A", ds). split; [in_doc|]. split; [in_merged|auto].
  - exists "T", [arg "a" "Int"; mkinput "x" (Named "Int" true) false ds], (mkinput "x" (Named "Int" true) false ds).
    split; [|split; [right; now left|auto]]. exists [], [arg "a" "Int"]. split; [in_doc|reflexivity].
  - exists (mkdir "e" false [LQuery] [mkinput "x" (Named "Int" true) false ds]), (mkinput "x" (Named "Int" true) false ds).
    split; [in_doc|]. split; [now left|auto].
Qed.

Lemma placed_directives : forall p ds e,
  In (DDirective e) (placed_by_extension p ds) -> d_name e <> "d".
Proof.
  intros p ds e H E. destruct p; cbn in H; repeat (destruct H as [H|H]; [try discriminate H; injection H as <-; discriminate E|]);
    contradiction.
Qed.

Lemma counterexample_breaks : forall r,
  enforcement r <> Enforced -> ~ holds r (counterexample r).
Proof.
  intros r L H.
  destruct r as [| | | | | | | | |o|o|o|o|o|o|o|o|o| |o|o|o|o|o|o| | | | | | | | | | | | | | |p|p|p];
    cbn [enforcement] in L; try (now apply L); cbn [holds counterexample] in H.
  - (* RootsAreObjects *)
    destruct H as [_ H]. refine (H _ "Query" [] KScalar (or_introl eq_refl) _); [|in_doc].
    intros s Hs. cbn in Hs. destruct Hs as [E|[E|[]]]; [discriminate|]. now injection E as <-.
  - (* RootsDistinct *)
    discriminate (H (mkschema false [] (Some "Query") None None) (mkschema true [] (Some "T") (Some "Query") None)
      "Query" "Mutation" "Query" ltac:(in_doc) ltac:(in_doc)
      ltac:(unfold root_of; cbn; auto) ltac:(unfold root_of; cbn; auto)).
  - (* QueryRootExists *)
    destruct H as [(s & n & Hs & _)|(_ & dirs & k & Hd)].
    + not_in_doc Hs.
    + unfold declares in Hd. not_in_doc Hd.
  - (* SpecifiedScalarsOmitted *)
    apply (H "String" [] KScalar); [in_doc|]. unfold specified_scalar. tauto.
  - (* FieldNamesUnique *)
    destruct o; [now apply L|].
    assert (HD : declares [query; def "T" (KInterface [] [an_int "a"; an_int "a"])] "T" []
      (KInterface [] [an_int "a"; an_int "a"])) by in_doc.
    specialize (H "T" _ _ (has_interface _ _ _ _ _ HD)).
    unfold merged in H. cbn in H. inversion H as [|x l N _]. apply N. now left.
  - destruct o; [now apply L|]. apply (H "T" (an_int "__b")); [|now exists "b"].
    apply (owned_type_of _ Interfaces "T" [] [] [an_int "a"]); [in_doc|in_merged].
  - destruct o; [now apply L|].
    destruct (H "T" (mkfield "b" [] (Named "Unknown" true) []) "Unknown") as [X|(dirs & k & Hd & _)].
    + apply (owned_type_of _ Interfaces "T" [] [] [an_int "a"]); [in_doc|in_merged].
    + constructor.
    + unfold specified_scalar in X. intuition discriminate.
    + unfold declares in Hd. not_in_doc Hd.
  - destruct o; [now apply L|].
    assert (X : NoDup ["x"; "x"]).
    { apply (H "T" (with_args "b" [arg "x" "Int"; arg "x" "Int"])).
      apply (owned_type_of _ Interfaces "T" [] [] [an_int "a"]); [in_doc|in_merged]. }
    inversion X as [|x l N _]. apply N. now left.
  - destruct o; [now apply L|]. apply (H "T" (with_args "b" [arg "__x" "Int"]) (arg "__x" "Int")); [|now left|now exists "x"].
    apply (owned_type_of _ Interfaces "T" [] [] [an_int "a"]); [in_doc|in_merged].
  - destruct o; [now apply L|].
    destruct (H "T" (with_args "b" [arg "x" "Query"]) (arg "x" "Query") "Query") as [X|(dirs & k & Hd & K)].
    + apply (owned_type_of _ Interfaces "T" [] [] [an_int "a"]); [in_doc|in_merged].
    + now left.
    + constructor.
    + unfold specified_scalar in X. intuition discriminate.
    + unfold declares in Hd. cbn in Hd. destruct Hd as [E|Hd]; [injection E as <- <-; exact K|]. not_in_doc Hd.
  - (* ImplementsNotItself *)
    assert (HD : declares [query; def "T" (KInterface ["T"] [an_int "a"])] "T" [] (KInterface ["T"] [an_int "a"])) by in_doc.
    specialize (H "T" _ _ (has_interface _ _ _ _ _ HD)). apply H. now left.
  - specialize (H _ _ _ _ _ _ (extended_implementation o _ _ _) "J" (or_introl eq_refl)).
    cbn in H. destruct H as [E|[]]. discriminate.
  - specialize (H _ _ _ _ _ _ (extended_implementation o _ _ _) "b" (or_intror (or_introl eq_refl))).
    cbn in H. destruct H as [E|[]]. discriminate.
  - specialize (H _ _ _ _ _ _ (mkfield "b" [] (Named "String" true) []) (an_int "b")
      (extended_implementation o _ _ _) (or_intror (or_introl eq_refl))
      (the_second "b" (mkfield "b" [] (Named "String" true) []) b_a eq_refl)).
    inversion H as [a b N _|a b _|a b HS]; [discriminate|]. subst.
    inversion HS as [n|x u dirs k dirs' k' Hd _ _ _|x i dirs k Hd _ _]; subst;
      unfold declares in Hd; destruct o; not_in_doc Hd.
  - specialize (H _ _ _ _ _ _ (an_int "b") (with_args "b" [arg "x" "Int"])
      (extended_implementation o _ _ _) (or_intror (or_introl eq_refl))
      (the_second "b" (an_int "b") b_a eq_refl) "x" (or_introl eq_refl)). exact H.
  - specialize (H _ _ _ _ _ _ (with_args "b" [arg "x" "String"]) (with_args "b" [arg "x" "Int"]) (arg "x" "String") (arg "x" "Int")
      (extended_implementation o _ _ _) (or_intror (or_introl eq_refl))
      (the_second "b" (with_args "b" [arg "x" "String"]) b_a eq_refl) (or_introl eq_refl) (or_introl eq_refl) eq_refl). discriminate.
  - specialize (H _ _ _ _ _ _ (with_args "b" [mkinput "x" (Named "Int" false) false []]) (an_int "b")
      (mkinput "x" (Named "Int" false) false [])
      (extended_implementation o _ _ _) (or_intror (or_introl eq_refl))
      (the_second "b" (with_args "b" [mkinput "x" (Named "Int" false) false []]) b_a eq_refl) (or_introl eq_refl) (fun F => F)).
    destruct H; discriminate.
  - assert (X : NoDup ["a"; "a"]).
    { apply (H "T" [arg "a" "Int"; arg "a" "Int"]). exists [], [arg "a" "Int"; arg "a" "Int"].
      split; [in_doc|reflexivity]. }
    inversion X as [|x l N _]. apply N. now left.
  - apply (H "T" [arg "__a" "Int"] (arg "__a" "Int")); [|now left|now exists "a"].
    exists [], [arg "__a" "Int"]. split; [in_doc|reflexivity].
  - destruct (H "T" [arg "a" "Int"; arg "b" "Query"] (arg "b" "Query") "Query") as [X|(dirs & k & Hd & K)].
    + exists [], [arg "a" "Int"]. split; [in_doc|reflexivity].
    + right. now left.
    + constructor.
    + unfold specified_scalar in X. intuition discriminate.
    + unfold declares in Hd. cbn in Hd. destruct Hd as [E|Hd]; [injection E as <- <-; exact K|]. not_in_doc Hd.
  - apply (H "T"). apply (requires_field _ "T" [arg "a" "Int"; mkinput "b" (Named "T" false) false []]
      (mkinput "b" (Named "T" false) false []) "T"); [|right; now left|reflexivity].
    exists [], [arg "a" "Int"]. split; [in_doc|reflexivity].
  - apply (H "d" [query] (DDirective (once LObject)) [] (DDirective (once LObject)) [] eq_refl); eexists; eauto.
  - assert (X : NoDup ["x"; "x"]).
    { apply (H (mkdir "d" false [LQuery] [arg "x" "Int"; arg "x" "Int"])). in_doc. }
    inversion X as [|x l N _]. apply N. now left.
  - apply (H (mkdir "d" false [LQuery] [arg "__x" "Int"]) (arg "__x" "Int")); [in_doc|now left|now exists "x"].
  - apply (H (mkdir "d" false [LArgumentDefinition] [mkinput "x" (Named "Int" true) false ["d"]])
      (mkinput "x" (Named "Int" true) false ["d"])); [in_doc|now left|now left].
  - destruct (H _ _ "unknown" (uses_placed p ["unknown"]) (or_introl eq_refl)) as [X|(d & Hd)].
    + unfold builtin_directive in X. intuition discriminate.
    + apply last_with_in in Hd. destruct Hd as [Hin (e & E & N)]. injection E as <-.
      destruct p; cbn in Hin; repeat (destruct Hin as [Hin|Hin]; [try discriminate Hin; injection Hin as <-; discriminate N|]);
        contradiction.
  - specialize (H _ _ "d" on_query (uses_placed_by_extension p on_query ["d"]) (or_introl eq_refl)
      (directive_first _ on_query (placed_directives p ["d"]))).
    destruct p; cbn in H; destruct H as [H|[]]; discriminate.
  - specialize (H _ _ "d" (once (position_location p)) (uses_placed_by_extension p _ ["d"; "d"])
      (ex_intro _ [] (ex_intro _ [] (ex_intro _ [] eq_refl)))
      (directive_first _ (once (position_location p)) (placed_directives p ["d"; "d"]))). discriminate.
Qed.

Lemma counterexample_accepted : forall opts r,
  enforcement r <> Enforced -> validate opts (counterexample r) = Some [].
Proof.
  intros [f d] r L.
  destruct r as [| | | | | | | | |o|o|o|o|o|o|o|o|o| |o|o|o|o|o|o| | | | | | | | | | | | | | |p|p|p];
    cbn [enforcement] in L; try (exfalso; now apply L);
    try destruct o; try (exfalso; now apply L);
    try (destruct p as [| | | | | | | |o|o| | |]; try destruct o; try (exfalso; now apply L));
    destruct f, d; vm_compute; reflexivity.
Qed.

Definition extends_nothing (doc : document) : bool :=
  forallb (fun d => match d with DType t => negb (t_extend t) | DSchema s => negb (s_extend s) | _ => true end) doc.

Lemma extends_nothing_iff : forall doc, extends_nothing doc = true -> no_extensions doc.
Proof.
  intros doc H. unfold extends_nothing in H. rewrite forallb_forall in H.
  split; intros x Hx; specialize (H _ Hx); cbn in H; now apply negb_true_iff.
Qed.

(* Under any options, accepted documents obey the rules that are enforced;
   those about names that must be defined only if extending unknown types is
   forbidden. *)
Theorem C62_enforced : forall opts doc r,
  validate opts doc = Some [] ->
  enforcement r = Enforced ->
  (needs_definitions r = true -> forbid_unknown opts = true) ->
  holds r doc.
Proof.
  intros opts doc r H HL HF. apply C61_accepted in H. destruct H as [_ H].
  apply (accepted_rules opts doc r H); [|now left]. intros E. left. auto.
Qed.

(* Without extensions, they also obey the others that aren't ignored. *)
Theorem C62_without_extensions : forall opts doc r,
  validate opts doc = Some [] -> no_extensions doc ->
  enforcement r <> Ignored -> holds r doc.
Proof.
  intros opts doc r H HX HL. apply C61_accepted in H. destruct H as [_ H].
  apply (accepted_rules opts doc r H); [intros _; now right|].
  destruct (enforcement r); [now left|right; auto|contradiction].
Qed.

(* Every other rule is broken by an accepted document, and if it is ignored
   then by one without extensions. *)
Theorem C62_refuted : forall r,
  enforcement r <> Enforced ->
  exists doc, (forall opts, validate opts doc = Some []) /\ ~ holds r doc /\
    (enforcement r = Ignored -> no_extensions doc).
Proof.
  intros r L. exists (counterexample r).
  split; [intros opts; now apply counterexample_accepted|].
  split; [now apply counterexample_breaks|].
  intros HI. apply extends_nothing_iff.
  destruct r as [| | | | | | | | |o|o|o|o|o|o|o|o|o| |o|o|o|o|o|o| | | | | | | | | | | | | | |p|p|p];
    cbn [enforcement] in HI; try discriminate HI;
    try destruct o; try discriminate HI;
    try (destruct p as [| | | | | | | |o|o| | |]; try destruct o; try discriminate HI); reflexivity.
Qed.

(* Where extending unknown types is allowed, as it is for `dev`, fields of any
   type that is extended and interfaces that are only extended pass. *)
Definition federated : document :=
  [query; ext "User" (KObject ["Node"] [an_int "id"; mkfield "pet" [] (Named "Pet" true) []]);
   ext "Node" (KInterface [] [an_int "id"]); ext "Pet" (KObject [] [an_int "id"]);
   def "T" (KObject ["Node"] [an_int "id"; mkfield "pet" [] (Named "Pet" true) []])].

Theorem C62_unknown_refuted : forall r,
  r = ExtensionsMatch \/ r = FieldTypesOutput Objects \/ r = ImplementsInterfaces Objects ->
  exists doc, validate (mkoptions false false) doc = Some [] /\ ~ holds r doc.
Proof.
  intros r HR. exists federated. split; [vm_compute; reflexivity|].
  destruct HR as [-> |[-> | ->]]; cbn [holds]; intros H.
  - destruct (H "Pet" [] (KObject [] [an_int "id"])) as [[X _]|(dirs & k & Hd & _)]; [in_doc|discriminate|].
    unfold declares in Hd. not_in_doc Hd.
  - destruct (H "T" (mkfield "pet" [] (Named "Pet" true) []) "Pet") as [X|(dirs & k & Hd & _)].
    + apply (owned_type_of federated Objects "T" [] ["Node"] [an_int "id"; mkfield "pet" [] (Named "Pet" true) []]);
        [in_doc|in_merged].
    + constructor.
    + unfold specified_scalar in X. intuition discriminate.
    + unfold declares in Hd. not_in_doc Hd.
  - assert (HD : declares federated "T" []
      (type_of Objects ["Node"] [an_int "id"; mkfield "pet" [] (Named "Pet" true) []])) by in_doc.
    destruct (H "T" _ _ "Node" (has_type_of _ _ _ _ _ _ HD) (or_introl eq_refl))
      as (dirs & k & Hd & _). unfold declares in Hd. not_in_doc Hd.
Qed.
