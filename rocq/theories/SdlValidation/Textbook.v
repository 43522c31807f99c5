(* The rules for schemas of the GraphQL specification (October 2021, section
   3), on the schema that a document and its extensions stand for.

   The rules about values of defaults and about arguments of directives are
   left out: the model has neither. *)
From Coq Require Import String List Bool.
From Verif.SdlValidation Require Import Model Spec.
Import ListNotations.
Local Open Scope string_scope.
Local Open Scope list_scope.

(* what a definition and the extensions of its name consist of *)
Definition merged {A} (part : kind -> list A) (doc : document) (n : name) (k : kind) : list A :=
  part k ++ extension_parts part doc n.

Inductive owner := Objects | Interfaces.

Definition of_owner (o : owner) (k : kind) : Prop :=
  match o, k with
  | Objects, KObject _ _ | Interfaces, KInterface _ _ => True
  | _, _ => False
  end.

Definition an_object (k : kind) : Prop := of_owner Objects k.
Definition an_interface (k : kind) : Prop := of_owner Interfaces k.

(* a field of an object, or of an interface *)
Definition owned (doc : document) (o : owner) (n : name) (f : field) : Prop :=
  exists dirs k, declares doc n dirs k /\ of_owner o k /\ In f (merged fields_part doc n k).

Definition input_fields (doc : document) (n : name) (fs : list input_value) : Prop :=
  exists dirs fs0, declares doc n dirs (KInput fs0) /\ fs = merged inputs_part doc n (KInput fs0).

Definition output_type (doc : document) (n : name) : Prop :=
  specified_scalar n \/ exists dirs k, declares doc n dirs k /\ forall fs, k <> KInput fs.

Definition input_type (doc : document) (n : name) : Prop :=
  specified_scalar n \/
  exists dirs k, declares doc n dirs k /\
    match k with KScalar | KEnum _ | KInput _ => True | _ => False end.

(* An object or interface, with its interfaces and fields. *)
Definition has_fields (doc : document) (o : owner) (n : name) (is : list name) (fs : list field) : Prop :=
  exists dirs k, declares doc n dirs k /\ of_owner o k /\
    is = merged implements_part doc n k /\ fs = merged fields_part doc n k.

Definition implements (doc : document) (n i : name) : Prop :=
  exists o is fs, has_fields doc o n is fs /\ In i is.

(* IsSubType *)
Inductive sub_type (doc : document) : name -> name -> Prop :=
| subtype_same n : sub_type doc n n
| subtype_member o u dirs k dirs' k' :
    declares doc u dirs k -> In o (merged members_part doc u k) ->
    declares doc o dirs' k' -> an_object k' -> sub_type doc o u
| subtype_implements o i dirs k :
    declares doc i dirs k -> an_interface k -> implements doc o i -> sub_type doc o i.

(* IsValidImplementationFieldType *)
Inductive covariant (doc : document) : ty -> ty -> Prop :=
| cov_non_null a b :
    nullable a = false -> covariant doc (as_nullable a) (as_nullable b) -> covariant doc a b
| cov_list a b : covariant doc a b -> covariant doc (ListOf a true) (ListOf b true)
| cov_named a b : sub_type doc a b -> covariant doc (Named a true) (Named b true).

(* a series of non-null fields of input objects *)
Inductive requires (doc : document) : name -> name -> Prop :=
| requires_field n fs f m :
    input_fields doc n fs -> In f fs -> iv_type f = Named m false -> requires doc n m
| requires_more n m p : requires doc n m -> requires doc m p -> requires doc n p.

(* Where directives are used. *)
Inductive position :=
| OnSchema | OnScalars | OnScalarExtensions | OnObjects | OnInterfaces | OnUnions | OnEnums | OnInputs
| OnFields (o : owner) | OnArguments (o : owner) | OnValues | OnInputFields | OnDirectiveArguments.

Definition type_location (k : kind) : location :=
  match k with
  | KScalar => LScalar | KObject _ _ => LObject | KInterface _ _ => LInterface
  | KUnion _ => LUnion | KEnum _ => LEnum | KInput _ => LInputObject
  end.

Definition uses (doc : document) (p : position) (dirs : list name) (l : location) : Prop :=
  let on k := exists t, In (DType t) doc /\ t_dirs t = dirs /\ type_location (t_kind t) = k /\ l = k in
  match p with
  | OnSchema => exists s, In (DSchema s) doc /\ dirs = s_dirs s /\ l = LSchema
  | OnScalars => exists n, declares doc n dirs KScalar /\ l = LScalar
  | OnScalarExtensions => exists n, extends doc n dirs KScalar /\ l = LScalar
  | OnObjects => on LObject
  | OnInterfaces => on LInterface
  | OnUnions => on LUnion
  | OnEnums => on LEnum
  | OnInputs => on LInputObject
  | OnFields o => exists n f, owned doc o n f /\ dirs = f_dirs f /\ l = LFieldDefinition
  | OnArguments o =>
      exists n f a, owned doc o n f /\ In a (f_args f) /\ dirs = iv_dirs a /\ l = LArgumentDefinition
  | OnValues =>
      exists n d vs v, declares doc n d (KEnum vs) /\ In v (merged values_part doc n (KEnum vs)) /\
        dirs = snd v /\ l = LEnumValue
  | OnInputFields => exists n fs f, input_fields doc n fs /\ In f fs /\ dirs = iv_dirs f /\ l = LInputFieldDefinition
  | OnDirectiveArguments =>
      exists d a, In (DDirective d) doc /\ In a (d_args d) /\ dirs = iv_dirs a /\ l = LArgumentDefinition
  end.

Definition builtin_directive (d : name) : Prop :=
  d = "skip" \/ d = "include" \/ d = "deprecated" \/ d = "specifiedBy".

Inductive rule :=
(* 3.3 Schema *)
| TypeNamesUnique | TypeNamesNotReserved | OneSchema | RootsAreObjects | RootsDistinct | QueryRootExists
(* 3.4.3, 3.5 extensions, scalars *)
| ExtensionsMatch | SpecifiedScalarsAreScalars | SpecifiedScalarsOmitted
(* 3.6, 3.7 objects and interfaces *)
| SomeFields (o : owner) | FieldNamesUnique (o : owner) | FieldNamesNotReserved (o : owner)
| FieldTypesOutput (o : owner)
| ArgumentNamesUnique (o : owner) | ArgumentNamesNotReserved (o : owner) | ArgumentTypesInput (o : owner)
| ImplementsUnique (o : owner) | ImplementsInterfaces (o : owner) | ImplementsNotItself
| ImplementsTransitively (o : owner) | ImplementsFields (o : owner) | ImplementsCovariantly (o : owner)
| ImplementsArguments (o : owner) | ImplementsArgumentTypes (o : owner) | AdditionalArgumentsOptional (o : owner)
(* 3.8, 3.9 unions and enums *)
| MembersObjects | MembersUnique | ValuesUnique
(* 3.10 input objects *)
| SomeInputFields | InputFieldNamesUnique | InputFieldNamesNotReserved | InputFieldTypesInput | NoInputCycles
(* 3.13 directives *)
| DirectiveNamesUnique | DirectiveNamesNotReserved | DirectiveArgumentNamesUnique
| DirectiveArgumentNamesNotReserved | DirectiveArgumentTypesInput | DirectivesNotRecursive
| DirectivesDefined (p : position) | DirectiveLocations (p : position) | DirectivesNotRepeated (p : position).

(* the implementer, the interface and its fields *)
Definition implementation (doc : document) (o : owner) (n i : name) (is is' : list name) (fs fs' : list field) : Prop :=
  has_fields doc o n is fs /\ In i is /\ has_fields doc Interfaces i is' fs'.

Definition the_field (fs : list field) (f : name) (x : field) : Prop :=
  first_with (fun y => f_name y = f) fs x.

Definition holds (r : rule) (doc : document) : Prop :=
  match r with
  | TypeNamesUnique =>
      forall n a x b y c, doc = a ++ x :: b ++ y :: c -> type_def n x -> ~ type_def n y
  | TypeNamesNotReserved => forall t, In (DType t) doc -> ~ reserved (t_name t)
  | OneSchema =>
      forall a s b s' c, doc = a ++ DSchema s :: b ++ DSchema s' :: c ->
        s_extend s = false -> s_extend s' = true
  | RootsAreObjects =>
      (forall s r n, In (DSchema s) doc -> root_of s r (Some n) ->
         exists dirs k, declares doc n dirs k /\ an_object k) /\
      ((forall s, In (DSchema s) doc -> s_extend s = true) ->
       forall r dirs k, r = "Query" \/ r = "Mutation" \/ r = "Subscription" ->
         declares doc r dirs k -> an_object k)
  | RootsDistinct =>
      forall s s' r r' n, In (DSchema s) doc -> In (DSchema s') doc ->
        root_of s r (Some n) -> root_of s' r' (Some n) -> r = r'
  | QueryRootExists =>
      (exists s n, In (DSchema s) doc /\ s_query s = Some n) \/
      ((forall s, In (DSchema s) doc -> s_extend s = true) /\ exists dirs k, declares doc "Query" dirs k)
  | ExtensionsMatch =>
      forall n dirs k, extends doc n dirs k ->
        (k = KScalar /\ specified_scalar n) \/
        exists dirs' k', declares doc n dirs' k' /\ type_location k' = type_location k
  | SpecifiedScalarsAreScalars =>
      forall n dirs k, declares doc n dirs k -> specified_scalar n -> k = KScalar
  | SpecifiedScalarsOmitted => forall n dirs k, declares doc n dirs k -> ~ specified_scalar n
  | SomeFields o => forall n is fs, has_fields doc o n is fs -> fs <> []
  | FieldNamesUnique o => forall n is fs, has_fields doc o n is fs -> NoDup (map f_name fs)
  | FieldNamesNotReserved o => forall n f, owned doc o n f -> ~ reserved (f_name f)
  | FieldTypesOutput o =>
      forall n f m, owned doc o n f -> named_in m (f_type f) -> output_type doc m
  | ArgumentNamesUnique o => forall n f, owned doc o n f -> NoDup (map iv_name (f_args f))
  | ArgumentNamesNotReserved o =>
      forall n f a, owned doc o n f -> In a (f_args f) -> ~ reserved (iv_name a)
  | ArgumentTypesInput o =>
      forall n f a m, owned doc o n f -> In a (f_args f) -> named_in m (iv_type a) -> input_type doc m
  | ImplementsUnique o => forall n is fs, has_fields doc o n is fs -> NoDup is
  | ImplementsInterfaces o =>
      forall n is fs i, has_fields doc o n is fs -> In i is ->
        exists dirs k, declares doc i dirs k /\ an_interface k
  | ImplementsNotItself => forall n is fs, has_fields doc Interfaces n is fs -> ~ In n is
  | ImplementsTransitively o =>
      forall n i is is' fs fs', implementation doc o n i is is' fs fs' -> incl is' is
  | ImplementsFields o =>
      forall n i is is' fs fs', implementation doc o n i is is' fs fs' ->
        incl (map f_name fs') (map f_name fs)
  | ImplementsCovariantly o =>
      forall n i is is' fs fs' x y, implementation doc o n i is is' fs fs' ->
        In y fs' -> the_field fs (f_name y) x -> covariant doc (f_type x) (f_type y)
  | ImplementsArguments o =>
      forall n i is is' fs fs' x y, implementation doc o n i is is' fs fs' ->
        In y fs' -> the_field fs (f_name y) x -> incl (map iv_name (f_args y)) (map iv_name (f_args x))
  | ImplementsArgumentTypes o =>
      forall n i is is' fs fs' x y a b, implementation doc o n i is is' fs fs' ->
        In y fs' -> the_field fs (f_name y) x ->
        In a (f_args x) -> In b (f_args y) -> iv_name a = iv_name b -> iv_type a = iv_type b
  | AdditionalArgumentsOptional o =>
      forall n i is is' fs fs' x y a, implementation doc o n i is is' fs fs' ->
        In y fs' -> the_field fs (f_name y) x ->
        In a (f_args x) -> ~ In (iv_name a) (map iv_name (f_args y)) ->
        nullable (iv_type a) = true \/ has_default a = true
  | MembersObjects =>
      forall n dirs ms m, declares doc n dirs (KUnion ms) -> In m (merged members_part doc n (KUnion ms)) ->
        exists dirs' k, declares doc m dirs' k /\ an_object k
  | MembersUnique =>
      forall n dirs ms, declares doc n dirs (KUnion ms) -> NoDup (merged members_part doc n (KUnion ms))
  | ValuesUnique =>
      forall n dirs vs, declares doc n dirs (KEnum vs) ->
        NoDup (map fst (merged values_part doc n (KEnum vs)))
  | SomeInputFields => forall n fs, input_fields doc n fs -> fs <> []
  | InputFieldNamesUnique => forall n fs, input_fields doc n fs -> NoDup (map iv_name fs)
  | InputFieldNamesNotReserved => forall n fs f, input_fields doc n fs -> In f fs -> ~ reserved (iv_name f)
  | InputFieldTypesInput =>
      forall n fs f m, input_fields doc n fs -> In f fs -> named_in m (iv_type f) -> input_type doc m
  | NoInputCycles => forall n, ~ requires doc n n
  | DirectiveNamesUnique =>
      forall n a x b y c, doc = a ++ x :: b ++ y :: c -> directive_def n x -> ~ directive_def n y
  | DirectiveNamesNotReserved => forall d, In (DDirective d) doc -> ~ reserved (d_name d)
  | DirectiveArgumentNamesUnique => forall d, In (DDirective d) doc -> NoDup (map iv_name (d_args d))
  | DirectiveArgumentNamesNotReserved =>
      forall d a, In (DDirective d) doc -> In a (d_args d) -> ~ reserved (iv_name a)
  | DirectiveArgumentTypesInput =>
      forall d a m, In (DDirective d) doc -> In a (d_args d) -> named_in m (iv_type a) -> input_type doc m
  | DirectivesNotRecursive =>
      forall d a, In (DDirective d) doc -> In a (d_args d) -> ~ In (d_name d) (iv_dirs a)
  | DirectivesDefined p =>
      forall dirs l d, uses doc p dirs l -> In d dirs -> builtin_directive d \/ exists def, directive_defined doc d def
  | DirectiveLocations p =>
      forall dirs l d def, uses doc p dirs l -> In d dirs -> directive_defined doc d def -> In l (d_locations def)
  | DirectivesNotRepeated p =>
      forall dirs l d def, uses doc p dirs l -> twice dirs d -> directive_defined doc d def -> d_repeatable def = true
  end.

Definition no_extensions (doc : document) : Prop :=
  (forall t, In (DType t) doc -> t_extend t = false) /\
  (forall s, In (DSchema s) doc -> s_extend s = false).

(* How far the validator enforces a rule. *)
Inductive level := Enforced | WithoutExtensions | Ignored.

Definition at_owner (o : owner) : level :=
  match o with Objects => Enforced | Interfaces => WithoutExtensions end.

Definition at_position (p : position) : level :=
  match p with
  | OnScalars | OnDirectiveArguments => Ignored
  | OnFields o | OnArguments o => at_owner o
  | OnInputFields => WithoutExtensions
  | _ => Enforced
  end.

Definition enforcement (r : rule) : level :=
  match r with
  | TypeNamesUnique | TypeNamesNotReserved | OneSchema | ExtensionsMatch | SpecifiedScalarsAreScalars
  | SomeFields _ | FieldNamesUnique Objects | ImplementsUnique _ | ImplementsInterfaces _
  | MembersObjects | MembersUnique | ValuesUnique | SomeInputFields
  | DirectiveNamesNotReserved | DirectiveArgumentTypesInput => Enforced
  | FieldNamesNotReserved o | FieldTypesOutput o | ArgumentNamesUnique o | ArgumentNamesNotReserved o
  | ArgumentTypesInput o => at_owner o
  | RootsAreObjects | RootsDistinct | ImplementsTransitively _ | ImplementsFields _ | ImplementsCovariantly _
  | ImplementsArguments _ | ImplementsArgumentTypes _ | AdditionalArgumentsOptional _
  | InputFieldTypesInput | NoInputCycles => WithoutExtensions
  | DirectiveLocations p | DirectivesNotRepeated p => at_position p
  | DirectivesDefined OnScalarExtensions => WithoutExtensions
  | QueryRootExists | SpecifiedScalarsOmitted | FieldNamesUnique Interfaces | ImplementsNotItself
  | InputFieldNamesUnique | InputFieldNamesNotReserved | DirectiveNamesUnique
  | DirectiveArgumentNamesUnique | DirectiveArgumentNamesNotReserved | DirectivesNotRecursive
  | DirectivesDefined _ => Ignored
  end.

(* the rules that a document which extends types it doesn't define breaks *)
Definition needs_definitions (r : rule) : bool :=
  match r with ExtensionsMatch | FieldTypesOutput _ | ImplementsInterfaces _ => true | _ => false end.
