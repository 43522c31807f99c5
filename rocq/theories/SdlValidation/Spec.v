(* What the diagnostics of schema validation stand for, and which schema
   documents the GraphQL specification (October 2021) calls valid.  Nothing
   here refers to the functions of the model: names are resolved by looking at
   the document, not at the tables that the first pass builds. *)
From Coq Require Import String List Bool.
From Verif.SdlValidation Require Import Model.
Import ListNotations.
Local Open Scope string_scope.
Local Open Scope list_scope.

Definition reserved (n : name) : Prop := exists s, n = ("__" ++ s)%string.

Definition specified_scalar (n : name) : Prop :=
  n = "Int" \/ n = "Float" \/ n = "String" \/ n = "Boolean" \/ n = "ID".

(* x is twice in l *)
Definition twice {A} (l : list A) (x : A) : Prop :=
  exists a b c, l = a ++ x :: b ++ x :: c.

(* the first, or last, element of l with the property *)
Definition first_with {A} (P : A -> Prop) (l : list A) (x : A) : Prop :=
  exists a b, l = a ++ x :: b /\ P x /\ Forall (fun y => ~ P y) a.
Definition last_with {A} (P : A -> Prop) (l : list A) (x : A) : Prop :=
  exists a b, l = a ++ x :: b /\ P x /\ Forall (fun y => ~ P y) b.

(* ------------------------------------------------------------- the document *)

Definition type_def (n : name) (d : definition) : Prop :=
  exists t, d = DType t /\ t_extend t = false /\ t_name t = n.
Definition type_ext (n : name) (d : definition) : Prop :=
  exists t, d = DType t /\ t_extend t = true /\ t_name t = n.
Definition directive_def (n : name) (d : definition) : Prop :=
  exists def, d = DDirective def /\ d_name def = n.

(* What a name stands for: if it is defined several times, which is an error,
   the last definition. *)
Definition defined (doc : document) (n : name) (t : typedef) : Prop :=
  last_with (type_def n) doc (DType t).
Definition undefined (doc : document) (n : name) : Prop := forall t, ~ defined doc n t.
Definition directive_defined (doc : document) (n : name) (d : dirdef) : Prop :=
  last_with (directive_def n) doc (DDirective d).
(* the first extension of a type *)
Definition extended (doc : document) (n : name) (t : typedef) : Prop :=
  first_with (type_ext n) doc (DType t).

(* a definition of the document that isn't an extension *)
Definition declares (doc : document) (n : name) (dirs : list name) (k : kind) : Prop :=
  In (DType (mktype false n dirs k)) doc.
Definition extends (doc : document) (n : name) (dirs : list name) (k : kind) : Prop :=
  In (DType (mktype true n dirs k)) doc.

(* what the extensions of a name add, in the order of the document *)
Definition extension_parts {A} (part : kind -> list A) (doc : document) (n : name) : list A :=
  flat_map (fun d => match d with
                     | DType t => if t_extend t then if String.eqb (t_name t) n then part (t_kind t) else [] else []
                     | _ => []
                     end) doc.

Definition fields_part (k : kind) := match k with KObject _ fs | KInterface _ fs => fs | _ => [] end.
Definition implements_part (k : kind) := match k with KObject is _ | KInterface is _ => is | _ => [] end.
Definition members_part (k : kind) := match k with KUnion ms => ms | _ => [] end.
Definition values_part (k : kind) := match k with KEnum vs => vs | _ => [] end.
Definition inputs_part (k : kind) := match k with KInput fs => fs | _ => [] end.

(* ----------------------------------------- where the validator looks *)

(* A field of an object with its extensions, or of an interface without. *)
Inductive checked_field (doc : document) (n : name) (f : field) : Prop :=
| checked_object dirs impls fs :
    declares doc n dirs (KObject impls fs) ->
    In f (fs ++ extension_parts fields_part doc n) -> checked_field doc n f
| checked_interface dirs impls fs :
    declares doc n dirs (KInterface impls fs) -> In f fs -> checked_field doc n f.

Definition checked_argument (doc : document) (n f : name) (a : input_value) : Prop :=
  exists fld, checked_field doc n fld /\ f_name fld = f /\ In a (f_args fld).

Definition checked_input_field (doc : document) (n : name) (f : input_value) : Prop :=
  exists dirs fs, declares doc n dirs (KInput fs) /\ In f fs.

Definition checked_value (doc : document) (n : name) (v : name * list name) : Prop :=
  exists dirs vs, declares doc n dirs (KEnum vs) /\ In v (vs ++ extension_parts values_part doc n).

(* Where directives are used, with the location: everywhere but on scalars,
   and on the fields that extensions add to interfaces and input objects. *)
Inductive site (doc : document) : list name -> location -> Prop :=
| site_schema s : In (DSchema s) doc -> site doc (s_dirs s) LSchema
| site_object t is fs : In (DType t) doc -> t_kind t = KObject is fs -> site doc (t_dirs t) LObject
| site_interface t is fs : In (DType t) doc -> t_kind t = KInterface is fs -> site doc (t_dirs t) LInterface
| site_union t ms : In (DType t) doc -> t_kind t = KUnion ms -> site doc (t_dirs t) LUnion
| site_enum t vs : In (DType t) doc -> t_kind t = KEnum vs -> site doc (t_dirs t) LEnum
| site_input t fs : In (DType t) doc -> t_kind t = KInput fs -> site doc (t_dirs t) LInputObject
| site_scalar n dirs : extends doc n dirs KScalar -> site doc dirs LScalar
| site_field n f : checked_field doc n f -> site doc (f_dirs f) LFieldDefinition
| site_argument n f a : checked_argument doc n f a -> site doc (iv_dirs a) LArgumentDefinition
| site_value n v : checked_value doc n v -> site doc (snd v) LEnumValue
| site_input_field n f : checked_input_field doc n f -> site doc (iv_dirs f) LInputFieldDefinition.

Inductive input_position (doc : document) : ty -> place -> Prop :=
| input_argument n f a :
    checked_argument doc n f a -> input_position doc (iv_type a) (AtArgument n f (iv_name a))
| input_field n f :
    checked_input_field doc n f -> input_position doc (iv_type f) (AtField n (iv_name f))
| input_directive d a :
    In (DDirective d) doc -> In a (d_args d) ->
    input_position doc (iv_type a) (AtDirective (d_name d) (iv_name a)).

Definition output_position (doc : document) (t : ty) (p : place) : Prop :=
  exists n f, checked_field doc n f /\ t = f_type f /\ p = AtField n (f_name f).

Inductive named_in : name -> ty -> Prop :=
| named_here n b : named_in n (Named n b)
| named_inside n t b : named_in n t -> named_in n (ListOf t b).

(* An implementer with all its interfaces, its own fields and all of them. *)
Inductive implementer (doc : document) (n : name) (is : list name) (fs : list field) : Prop :=
| implementer_object dirs is0 fs0 :
    declares doc n dirs (KObject is0 fs0) ->
    is = is0 ++ extension_parts implements_part doc n ->
    fs = fs0 ++ extension_parts fields_part doc n -> implementer doc n is fs
| implementer_interface dirs is0 fs0 :
    declares doc n dirs (KInterface is0 fs0) ->
    is = is0 ++ extension_parts implements_part doc n ->
    fs = fs0 ++ extension_parts fields_part doc n -> implementer doc n is fs.

(* what the name of an interface stands for: its definition or, where unknown
   types may be extended, its first extension *)
Definition resolves (opts : options) (doc : document) (n : name) (t : typedef) : Prop :=
  defined doc n t \/
  (undefined doc n /\ forbid_unknown opts = false /\ extended doc n t).

(* ------------------------------------------- IsValidImplementationFieldType *)

(* The specification's rule, on the definitions without their extensions. *)
Inductive named_subtype (doc : document) : name -> name -> Prop :=
| sub_same n : named_subtype doc n n
| sub_union o u t ms :
    defined doc u t -> t_kind t = KUnion ms -> In o ms -> named_subtype doc o u
| sub_object o i t u is fs is' fs' :
    defined doc i t -> t_kind t = KInterface is fs ->
    defined doc o u -> t_kind u = KObject is' fs' -> In i is' -> named_subtype doc o i
| sub_interface o i t u is fs is' fs' :
    defined doc i t -> t_kind t = KInterface is fs ->
    defined doc o u -> t_kind u = KInterface is' fs' -> In i is' -> named_subtype doc o i.

Definition as_nullable (t : ty) : ty :=
  match t with Named n _ => Named n true | ListOf t _ => ListOf t true end.

Inductive implementation_type (doc : document) : ty -> ty -> Prop :=
| impl_non_null a b :
    nullable a = false -> implementation_type doc (as_nullable a) (as_nullable b) ->
    implementation_type doc a b
| impl_list a b : implementation_type doc a b -> implementation_type doc (ListOf a true) (ListOf b true)
| impl_named a b : named_subtype doc a b -> implementation_type doc (Named a true) (Named b true).

(* ------------------------------------------------------- cycles of inputs *)

(* A series of non-null fields from one input object to another one. *)
Inductive input_path (doc : document) : list input_value -> list name -> name -> Prop :=
| path_last fs f n :
    In f fs -> iv_type f = Named n false -> input_path doc fs [iv_name f] n
| path_step fs f m t inner chain n :
    In f fs -> iv_type f = Named m false -> defined doc m t -> t_kind t = KInput inner ->
    input_path doc inner chain n -> input_path doc fs (iv_name f :: chain) n.

(* ------------------------------------------------- what diagnostics mean *)

Definition not_of_kind (doc : document) (n : name) (P : kind -> Prop) : Prop :=
  forall t, defined doc n t -> ~ P (t_kind t).

Inductive extends_as (k : kind) : ext_kind -> Prop :=
| as_object is fs : k = KObject is fs -> extends_as k XObject
| as_interface is fs : k = KInterface is fs -> extends_as k XInterface
| as_input fs : k = KInput fs -> extends_as k XInput
| as_union ms : k = KUnion ms -> extends_as k XUnion
| as_enum vs : k = KEnum vs -> extends_as k XEnum
| as_scalar : k = KScalar -> extends_as k XScalar.

Definition root_of (s : schemadef) (root : name) (n : option name) : Prop :=
  (root = "Query" /\ n = s_query s) \/ (root = "Mutation" /\ n = s_mutation s) \/
  (root = "Subscription" /\ n = s_subscription s).

(* the type that an operation is taken to start at: that named or else the
   default *)
Definition root_name (s : schemadef) (root n : name) : Prop :=
  exists o, root_of s root o /\ (o = Some n \/ (o = None /\ n = root)).

Definition violates (opts : options) (doc : document) (e : error) : Prop :=
  match e with
  | ReservedName n =>
      specified_scalar n /\ exists dirs k, declares doc n dirs k /\ k <> KScalar
  | DoubleUnderscore n => reserved n /\ exists t, In (DType t) doc /\ t_name t = n
  | DuplicateDefinition n =>
      exists a x b y c, doc = a ++ x :: b ++ y :: c /\ type_def n x /\ type_def n y
  | DirectiveName => exists d, In (DDirective d) doc /\ reserved (d_name d)
  | NotRepeatable d =>
      exists dirs l def, site doc dirs l /\ twice dirs d /\
        directive_defined doc d def /\ d_repeatable def = false
  | BadLocation d l =>
      exists dirs def, site doc dirs l /\ In d dirs /\
        directive_defined doc d def /\ ~ In l (d_locations def)
  | DuplicateSchema =>
      exists a s b s' c, doc = a ++ DSchema s :: b ++ DSchema s' :: c /\
        s_extend s = false /\ s_extend s' = false
  | RootTwice n =>
      exists s r r', In (DSchema s) doc /\ r <> r' /\ root_name s r n /\ root_name s r' n
  | RootUnknown r n => exists s, In (DSchema s) doc /\ root_of s r (Some n) /\ undefined doc n
  | RootNotObject r n =>
      exists s t, In (DSchema s) doc /\ root_of s r (Some n) /\ defined doc n t /\
        forall is fs, t_kind t <> KObject is fs
  | RootShouldBeObject r =>
      (forall s, ~ In (DSchema s) doc) /\ (r = "Query" \/ r = "Mutation" \/ r = "Subscription") /\
      exists t, defined doc r t /\ forall is fs, t_kind t <> KObject is fs
  | DuplicateImplements t i => exists is fs, implementer doc t is fs /\ twice is i
  | UnknownInterface t i =>
      exists is fs, implementer doc t is fs /\ In i is /\ forall u, ~ resolves opts doc i u
  | NotAnInterface t i =>
      exists is fs u, implementer doc t is fs /\ In i is /\ resolves opts doc i u /\
        forall is' fs', t_kind u <> KInterface is' fs'
  | MissingTransitive t i via =>
      exists is fs u is' fs', implementer doc t is fs /\ In via is /\ resolves opts doc via u /\
        t_kind u = KInterface is' fs' /\ In i is' /\ ~ In i is
  | MissingField t f i =>
      exists is fs u is' fs', implementer doc t is fs /\ In i is /\ resolves opts doc i u /\
        t_kind u = KInterface is' fs' /\ In f (map f_name fs') /\ ~ In f (map f_name fs)
  | BadFieldType t f i =>
      exists is fs u is' fs' x y, implementer doc t is fs /\ In i is /\ resolves opts doc i u /\
        t_kind u = KInterface is' fs' /\ In y fs' /\ f_name y = f /\
        first_with (fun z => f_name z = f) fs x /\ ~ implementation_type doc (f_type x) (f_type y)
  | ArgumentType t f a i =>
      exists is fs u is' fs' x y c d, implementer doc t is fs /\ In i is /\ resolves opts doc i u /\
        t_kind u = KInterface is' fs' /\ In y fs' /\ f_name y = f /\
        first_with (fun z => f_name z = f) fs x /\
        last_with (fun z => iv_name z = a) (f_args x) c /\
        last_with (fun z => iv_name z = a) (f_args y) d /\ iv_type c <> iv_type d
  | ArgumentRequired t f a i =>
      exists is fs u is' fs' x y c, implementer doc t is fs /\ In i is /\ resolves opts doc i u /\
        t_kind u = KInterface is' fs' /\ In y fs' /\ f_name y = f /\
        first_with (fun z => f_name z = f) fs x /\
        last_with (fun z => iv_name z = a) (f_args x) c /\
        ~ In a (map iv_name (f_args y)) /\ nullable (iv_type c) = false
  | ArgumentMissing t f a i =>
      exists is fs u is' fs' x y, implementer doc t is fs /\ In i is /\ resolves opts doc i u /\
        t_kind u = KInterface is' fs' /\ In y fs' /\ f_name y = f /\
        first_with (fun z => f_name z = f) fs x /\
        In a (map iv_name (f_args y)) /\ ~ In a (map iv_name (f_args x))
  | EmptyObject t =>
      exists dirs is, declares doc t dirs (KObject is []) /\ extension_parts fields_part doc t = []
  | EmptyInterface t => exists dirs is, declares doc t dirs (KInterface is [])
  | EmptyInput t => exists dirs, declares doc t dirs (KInput [])
  | FieldName t f => reserved f /\ exists x, checked_field doc t x /\ f_name x = f
  | DuplicateField t f =>
      exists dirs is fs, declares doc t dirs (KObject is fs) /\
        twice (map f_name (fs ++ extension_parts fields_part doc t)) f
  | DuplicateArgument t f a =>
      exists x, checked_field doc t x /\ f_name x = f /\ twice (map iv_name (f_args x)) a
  | ArgumentName => exists t f a, checked_argument doc t f a /\ reserved (iv_name a)
  | RequiredDeprecated t f a =>
      draft opts = true /\
      exists x, checked_argument doc t f x /\ iv_name x = a /\
        nullable (iv_type x) = false /\ has_default x = false /\ In "deprecated" (iv_dirs x)
  | UnknownType n p =>
      ~ specified_scalar n /\ undefined doc n /\
      exists t, named_in n t /\
        (input_position doc t p \/
         (output_position doc t p /\ (forbid_unknown opts = false -> forall u, ~ extended doc n u)))
  | OutputInInput n p =>
      ~ specified_scalar n /\
      exists t u, named_in n t /\ input_position doc t p /\ defined doc n u /\
        u.(t_kind) <> KScalar /\ (forall vs, t_kind u <> KEnum vs) /\ (forall fs, t_kind u <> KInput fs)
  | InputInOutput n p =>
      ~ specified_scalar n /\
      exists t u fs, named_in n t /\ output_position doc t p /\ resolves opts doc n u /\ t_kind u = KInput fs
  | DuplicateEnumValue t v =>
      exists dirs vs, declares doc t dirs (KEnum vs) /\
        twice (map fst (vs ++ extension_parts values_part doc t)) v
  | InputCycle t chain =>
      exists dirs fs, declares doc t dirs (KInput fs) /\ input_path doc fs chain t
  | UnionUnknown u m =>
      undefined doc m /\
      exists dirs ms, declares doc u dirs (KUnion ms) /\ In m (ms ++ extension_parts members_part doc u)
  | UnionNotObject u m =>
      (exists t, defined doc m t /\ forall is fs, t_kind t <> KObject is fs) /\
      exists dirs ms, declares doc u dirs (KUnion ms) /\ In m (ms ++ extension_parts members_part doc u)
  | UnionDuplicate u m =>
      exists dirs ms, declares doc u dirs (KUnion ms) /\ twice (ms ++ extension_parts members_part doc u) m
  | ExtendUnknown k n =>
      forbid_unknown opts = true /\ (k = XScalar -> ~ specified_scalar n) /\
      (exists dirs knd, extends doc n dirs knd /\ extends_as knd k) /\
      not_of_kind doc n (fun knd => extends_as knd k)
  end.

(* Two diagnostics that say the same, up to the chain of a cycle. *)
Definition same_diagnostic (e e' : error) : Prop :=
  match e, e' with
  | InputCycle t _, InputCycle t' _ => t = t'
  | _, _ => e = e'
  end.
