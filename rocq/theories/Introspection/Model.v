(** Model of the introspection resolver.
    Source: crates/engine/src/resolver/introspection/writer.rs ([IntrospectionWriter]),
    crates/engine/schema/src/introspection.rs (the fields of the introspection types, the
    directives), crates/engine/schema/src/lib.rs:227-266 (types and roots of the schema),
    crates/engine/src/prepare/cached/query_plan/field/arguments.rs:95-107 and argument.rs:94-118
    (the value of an argument).
    Definitions point to types by their position in [type_definitions_ordered_by_name]; in the
    source the ids are per kind and point to records.  The bits of "inaccessible" are part of the
    records here.  A panic ([unwrap], [expect], [unreachable!], index out of range) is [Panic]. *)
From Coq Require Import String List Bool NArith.
From Verif Require Import Wrapping.Model.
Import ListNotations.
Local Open Scope string_scope.
Local Open Scope list_scope.

Inductive outcome (A : Type) := Done (a : A) | Panic.
Arguments Done {A}. Arguments Panic {A}.
Definition obind {A B} (o : outcome A) (k : A -> outcome B) : outcome B :=
  match o with Done a => k a | Panic => Panic end.
Definition unwrap {A} (o : option A) : outcome A := match o with Some a => Done a | None => Panic end.
Section each.
  Context {A B : Type} (f : A -> outcome B).
  Fixpoint each (l : list A) : outcome (list B) :=
    match l with
    | [] => Done []
    | a :: l => obind (f a) (fun b => obind (each l) (fun r => Done (b :: r)))
    end.
End each.

(** schema/src/generated/directive.rs — [TypeSystemDirective]; only @deprecated matters here. *)
Inductive directive := Deprecated (reason : option string) | OtherDirective.

(** [InputValueDefinitionRecord]; the default value is what its [Display] writes (see Render.v). *)
Record ivalue := { v_name : string; v_desc : option string; v_ty : nat * wrapping; v_default : option string;
                   v_dirs : list directive; v_hidden : bool }.
(** [FieldDefinitionRecord] *)
Record field := { f_id : nat; f_name : string; f_desc : option string; f_args : list ivalue;
                  f_ty : nat * wrapping; f_dirs : list directive; f_hidden : bool }.
(** [EnumValueRecord] *)
Record evalue := { e_name : string; e_desc : option string; e_dirs : list directive; e_hidden : bool }.
(** [TypeDefinition]; interfaces and possible types are positions. *)
Inductive body :=
| Scalar (url : option string)
| Object (fields : list field) (interfaces : list nat)
| Interface (fields : list field) (interfaces possible : list nat)
| Union (possible : list nat)
| Enum (values : list evalue)
| Input (one_of : bool) (fields : list ivalue).
Record tdef := { t_name : string; t_desc : option string; t_hidden : bool; t_body : body }.
(** introspection.rs:141-148 — [IntrospectionDirective] *)
Record idirective := { d_name : string; d_desc : option string; d_locations : list string;
                       d_args : list ivalue; d_repeatable : bool }.
(** The schema with the parts of [IntrospectionSubgraph] that are read; [s_type_field] and
    [s_schema_field] are [meta_fields] (introspection.rs:153, 728). *)
Record schema := { s_desc : option string; s_types : list tdef;
                   s_query : nat; s_mutation : option nat; s_subscription : option nat;
                   s_type_field : nat; s_schema_field : nat; s_directives : list idirective }.

(** The response. *)
Inductive value := RNull | RStr (s : string) | RBool (b : bool) | RList (l : list value) | RObj (l : list (string * value)).
Definition opt_str (o : option string) : value := match o with Some s => RStr s | None => RNull end.

(** The value of "includeDeprecated" in the query: left out (the binder writes the default, see
    operation/src/bind/operation.rs:199-205), null, a boolean or a variable. *)
Inductive arg := ADefault | ANull | ABool (b : bool) | AVar (x : string).
(** The value of a variable. *)
Inductive vvalue := Undefined | VNull | VBool (b : bool).

(** A field of the query: response key, field name (it stands for the id of the field in its
    introspection type), argument.  A shape has sub-shapes for fields that are objects. *)
Record finfo := { i_key : string; i_name : string; i_include : arg }.
Inductive shape := Shape (fields : list (finfo * option shape)) (typenames : list string).

(** introspection.rs:20-138 — the tags of the fields. *)
Inductive schema_tag := SDescription | STypes | SQueryType | SMutationType | SSubscriptionType | SDirectives.
Inductive type_tag := YKind | YName | YDescription | YFields | YInterfaces | YPossibleTypes | YEnumValues
                    | YInputFields | YOfType | YSpecifiedByURL.
Inductive enum_value_tag := EName | EDescription | EIsDeprecated | EDeprecationReason.
Inductive input_value_tag := VName | VDescription | VType | VDefaultValue | VIsDeprecated | VDeprecationReason.
Inductive field_tag := FName | FDescription | FArgs | FType | FIsDeprecated | FDeprecationReason.
Inductive directive_tag := DName | DDescription | DLocations | DArgs | DIsRepeatable.

(** introspection.rs:176-185 — [Index for IntrospectionObject]. *)
Fixpoint index {E} (fields : list (string * E)) (name : string) : outcome E :=
  match fields with
  | [] => Panic
  | (n, e) :: fields => if String.eqb n name then Done e else index fields name
  end.
(** introspection.rs:529-539 *)
Definition __schema : list (string * schema_tag) :=
  [("description", SDescription); ("types", STypes); ("queryType", SQueryType);
   ("mutationType", SMutationType); ("subscriptionType", SSubscriptionType); ("directives", SDirectives)].
(** introspection.rs:473-487 *)
Definition __type : list (string * type_tag) :=
  [("kind", YKind); ("name", YName); ("description", YDescription); ("inputFields", YInputFields);
   ("specifiedByURL", YSpecifiedByURL); ("fields", YFields); ("enumValues", YEnumValues); ("ofType", YOfType);
   ("possibleTypes", YPossibleTypes); ("interfaces", YInterfaces)].
(** introspection.rs:357-365 *)
Definition __enum_value : list (string * enum_value_tag) :=
  [("name", EName); ("description", EDescription); ("isDeprecated", EIsDeprecated);
   ("deprecationReason", EDeprecationReason)].
(** introspection.rs:489-499 *)
Definition __input_value : list (string * input_value_tag) :=
  [("name", VName); ("description", VDescription); ("defaultValue", VDefaultValue); ("type", VType);
   ("isDeprecated", VIsDeprecated); ("deprecationReason", VDeprecationReason)].
(** introspection.rs:501-511 *)
Definition __field : list (string * field_tag) :=
  [("name", FName); ("description", FDescription); ("args", FArgs); ("isDeprecated", FIsDeprecated);
   ("deprecationReason", FDeprecationReason); ("type", FType)].
(** introspection.rs:412-421 *)
Definition __directive : list (string * directive_tag) :=
  [("name", DName); ("description", DDescription); ("locations", DLocations); ("args", DArgs);
   ("isRepeatable", DIsRepeatable)].

(** writer.rs:463-465 *)
Definition is_deprecated (dirs : list directive) : bool :=
  existsb (fun d => match d with Deprecated _ => true | OtherDirective => false end) dirs.
(** writer.rs:467-472 — [find_map]. *)
Fixpoint deprecation_reason (dirs : list directive) : option string :=
  match dirs with
  | [] => None
  | Deprecated (Some r) :: _ => Some r
  | _ :: dirs => deprecation_reason dirs
  end.

(** What an introspection object is about: the arguments of the calls of [object]. *)
Inductive target :=
| TgSchema                                  (* __schema *)
| TgList (id : nat) (w : wrapping)          (* writer.rs:165-171, [w] is the wrapping of the elements *)
| TgListRequired (id : nat) (w : wrapping)  (* __type_required_wrapping *)
| TgRequired (id : nat)                     (* writer.rs:174-179 *)
| TgNamed (id : nat)                        (* __type_inner *)
| TgField (f : field)                       (* __field *)
| TgInput (v : ivalue)                      (* __input_value *)
| TgDirective (d : idirective)              (* __directive_def *)
| TgEnumValue (e : evalue).                 (* __enum_value *)
(** What a field of it is. *)
Inductive answer := Value (v : value) | One (t : target) | Many (ts : list target).

Section writer.
  Variable g : schema.
  Variable vars : string -> vvalue.

  (** arguments.rs:95-107 with [T = bool]; the default of includeDeprecated is false
      (introspection.rs:580-585), [bool::deserialize] fails for null. *)
  Definition include_deprecated (a : arg) : outcome bool :=
    match a with
    | ADefault => Done false
    | ANull => Panic
    | ABool b => Done b
    | AVar x => match vars x with Undefined => Done false | VNull => Panic | VBool b => Done b end
    end.

  (** writer.rs:149-185 — [__type] and [__type_list_wrapping] up to the choice of the object. *)
  Definition type_target (ty : nat * wrapping) : outcome target :=
    let (id, w) := ty in
    match pop_outermost_list_wrapping w with
    | None => Panic
    | Some (w, Some LListNonNull) =>
        obind (unwrap (push_outermost_list_wrapping w LList)) (fun w => Done (TgListRequired id w))
    | Some (w, Some LList) => Done (TgList id w)
    | Some (w, None) => Done (if is_non_null w then TgRequired id else TgNamed id)
    end.

  Definition hidden_type (id : nat) : bool :=
    match nth_error (s_types g) id with Some d => t_hidden d | None => false end.
  Definition visible_types (ids : list nat) : list target :=
    map TgNamed (filter (fun id => negb (hidden_type id)) ids).

  (** writer.rs:106-147 *)
  Definition schema_answer (tag : schema_tag) : outcome answer :=
    match tag with
    | SDescription => Done (Value (opt_str (s_desc g)))
    | STypes => Done (Many (visible_types (seq 0 (List.length (s_types g)))))
    | SQueryType => Done (One (TgNamed (s_query g)))
    | SMutationType => Done (match s_mutation g with Some id => One (TgNamed id) | None => Value RNull end)
    | SSubscriptionType => Done (match s_subscription g with Some id => One (TgNamed id) | None => Value RNull end)
    | SDirectives => Done (Many (map TgDirective (s_directives g)))
    end.

  (** writer.rs:322 — [meta_fields.contains]. *)
  Definition meta_field (f : field) : bool :=
    existsb (Nat.eqb (f_id f)) [s_type_field g; s_schema_field g].
  (** writer.rs:303-327 — [__type_fields]. *)
  Definition type_fields (a : arg) (fields : list field) : outcome answer :=
    obind (include_deprecated a) (fun include =>
    Done (Many (map TgField (filter (fun f =>
      negb (f_hidden f) && (negb (is_deprecated (f_dirs f)) || include) &&
      negb (meta_field f)) fields)))).
  (** writer.rs:275-296, 363-381, 424-443 *)
  Definition input_values (a : arg) (l : list ivalue) : outcome answer :=
    obind (include_deprecated a) (fun include =>
    Done (Many (map TgInput (filter (fun v =>
      negb (v_hidden v) && (negb (is_deprecated (v_dirs v)) || include)) l)))).
  (** writer.rs:246-267 *)
  Definition enum_values (a : arg) (l : list evalue) : outcome answer :=
    obind (include_deprecated a) (fun include =>
    Done (Many (map TgEnumValue (filter (fun v =>
      negb (e_hidden v) && (negb (is_deprecated (e_dirs v)) || include)) l)))).

  (** writer.rs:202-301 — [__type_inner]; [__type_interfaces] and [__type_possible_types]
      (writer.rs:329-357) are [visible_types]. *)
  Definition named_answer (d : tdef) (a : arg) (tag : type_tag) : outcome answer :=
    match t_body d with
    | Scalar url => Done (Value (
        match tag with
        | YKind => RStr "SCALAR"
        | YName => RStr (t_name d)
        | YDescription => opt_str (t_desc d)
        | YSpecifiedByURL => opt_str url
        | _ => RNull
        end))
    | Object fields interfaces =>
        match tag with
        | YKind => Done (Value (RStr "OBJECT"))
        | YName => Done (Value (RStr (t_name d)))
        | YDescription => Done (Value (opt_str (t_desc d)))
        | YFields => type_fields a fields
        | YInterfaces => Done (Many (visible_types interfaces))
        | _ => Done (Value RNull)
        end
    | Interface fields interfaces possible =>
        match tag with
        | YKind => Done (Value (RStr "INTERFACE"))
        | YName => Done (Value (RStr (t_name d)))
        | YDescription => Done (Value (opt_str (t_desc d)))
        | YFields => type_fields a fields
        | YInterfaces => Done (Many (visible_types interfaces))
        | YPossibleTypes => Done (Many (visible_types possible))
        | _ => Done (Value RNull)
        end
    | Union possible =>
        match tag with
        | YKind => Done (Value (RStr "UNION"))
        | YName => Done (Value (RStr (t_name d)))
        | YDescription => Done (Value (opt_str (t_desc d)))
        | YPossibleTypes => Done (Many (visible_types possible))
        | _ => Done (Value RNull)
        end
    | Enum values =>
        match tag with
        | YKind => Done (Value (RStr "ENUM"))
        | YName => Done (Value (RStr (t_name d)))
        | YDescription => Done (Value (opt_str (t_desc d)))
        | YEnumValues => enum_values a values
        | _ => Done (Value RNull)
        end
    | Input _ fields =>
        match tag with
        | YKind => Done (Value (RStr "INPUT_OBJECT"))
        | YName => Done (Value (RStr (t_name d)))
        | YDescription => Done (Value (opt_str (t_desc d)))
        | YInputFields => input_values a fields
        | _ => Done (Value RNull)
        end
    end.

  (** writer.rs:165-171 *)
  Definition list_answer (id : nat) (w : wrapping) (tag : type_tag) : outcome answer :=
    match tag with
    | YKind => Done (Value (RStr "LIST"))
    | YOfType => obind (type_target (id, w)) (fun t => Done (One t))
    | _ => Done (Value RNull)
    end.
  (** writer.rs:187-200 *)
  Definition list_required_answer (id : nat) (w : wrapping) (tag : type_tag) : outcome answer :=
    match tag with
    | YKind => Done (Value (RStr "NON_NULL"))
    | YOfType => obind (type_target (id, w)) (fun t => Done (One t))
    | _ => Done (Value RNull)
    end.
  (** writer.rs:174-179 *)
  Definition required_answer (id : nat) (tag : type_tag) : outcome answer :=
    match tag with
    | YKind => Done (Value (RStr "NON_NULL"))
    | YOfType => Done (One (TgNamed id))
    | _ => Done (Value RNull)
    end.
  (** writer.rs:359-388 *)
  Definition field_answer (f : field) (a : arg) (tag : field_tag) : outcome answer :=
    match tag with
    | FName => Done (Value (RStr (f_name f)))
    | FDescription => Done (Value (opt_str (f_desc f)))
    | FArgs => input_values a (f_args f)
    | FType => obind (type_target (f_ty f)) (fun t => Done (One t))
    | FIsDeprecated => Done (Value (RBool (is_deprecated (f_dirs f))))
    | FDeprecationReason => Done (Value (opt_str (deprecation_reason (f_dirs f))))
    end.
  (** writer.rs:390-410 *)
  Definition input_value_answer (v : ivalue) (tag : input_value_tag) : outcome answer :=
    match tag with
    | VName => Done (Value (RStr (v_name v)))
    | VDescription => Done (Value (opt_str (v_desc v)))
    | VType => obind (type_target (v_ty v)) (fun t => Done (One t))
    | VIsDeprecated => Done (Value (RBool (is_deprecated (v_dirs v))))
    | VDeprecationReason => Done (Value (opt_str (deprecation_reason (v_dirs v))))
    | VDefaultValue => Done (Value (opt_str (v_default v)))
    end.
  (** writer.rs:412-447 *)
  Definition directive_answer (d : idirective) (a : arg) (tag : directive_tag) : outcome answer :=
    match tag with
    | DName => Done (Value (RStr (d_name d)))
    | DDescription => Done (Value (opt_str (d_desc d)))
    | DIsRepeatable => Done (Value (RBool (d_repeatable d)))
    | DLocations => Done (Value (RList (map RStr (d_locations d))))
    | DArgs => input_values a (d_args d)
    end.
  (** writer.rs:449-460 *)
  Definition enum_value_answer (e : evalue) (tag : enum_value_tag) : outcome answer :=
    match tag with
    | EName => Done (Value (RStr (e_name e)))
    | EDescription => Done (Value (opt_str (e_desc e)))
    | EIsDeprecated => Done (Value (RBool (is_deprecated (e_dirs e))))
    | EDeprecationReason => Done (Value (opt_str (deprecation_reason (e_dirs e))))
    end.

  Definition answer_of (t : target) (i : finfo) : outcome answer :=
    let a := i_include i in
    match t with
    | TgSchema => obind (index __schema (i_name i)) schema_answer
    | TgList id w => obind (index __type (i_name i)) (list_answer id w)
    | TgListRequired id w => obind (index __type (i_name i)) (list_required_answer id w)
    | TgRequired id => obind (index __type (i_name i)) (required_answer id)
    | TgNamed id => obind (unwrap (nth_error (s_types g) id)) (fun d =>
                    obind (index __type (i_name i)) (named_answer d a))
    | TgField f => obind (index __field (i_name i)) (field_answer f a)
    | TgInput v => obind (index __input_value (i_name i)) (input_value_answer v)
    | TgDirective d => obind (index __directive (i_name i)) (directive_answer d a)
    | TgEnumValue e => obind (index __enum_value (i_name i)) (enum_value_answer e)
    end.
  (** [object.id], introspection.rs:355-511. *)
  Definition object_name (t : target) : string :=
    match t with
    | TgSchema => "__Schema"
    | TgList _ _ | TgListRequired _ _ | TgRequired _ | TgNamed _ => "__Type"
    | TgField _ => "__Field"
    | TgInput _ => "__InputValue"
    | TgDirective _ => "__Directive"
    | TgEnumValue _ => "__EnumValue"
    end.

  (** writer.rs:72-104 — [object]; the closures are [answer_of], followed by the call for the
      sub-shape. *)
  Fixpoint object (s : shape) (t : target) : outcome value :=
    match s with
    | Shape fields typenames =>
        obind (each (fun f =>
          obind (answer_of t (fst f)) (fun a =>
          obind (match a with
                 | Value v => Done v
                 | One t => match snd f with Some s => object s t | None => Panic end
                 | Many ts => match snd f with
                              | Some s => obind (each (object s) ts) (fun l => Done (RList l))
                              | None => Panic
                              end
                 end) (fun v => Done (i_key (fst f), v)))) fields) (fun l =>
        Done (RObj (l ++ map (fun k => (k, RStr (object_name t))) typenames)))
    end.

  (** schema/src/lib.rs:243-250 — a binary search in the list sorted by name; names are distinct. *)
  Fixpoint position (name : string) (types : list tdef) (k : nat) : option nat :=
    match types with
    | [] => None
    | d :: types => if String.eqb (t_name d) name then Some k else position name types (S k)
    end.
  Definition type_definition_by_name (name : string) : option nat := position name (s_types g) 0.

  (** A root field: key, id of the definition, argument "name", shape. *)
  Record rfield := { r_key : string; r_id : nat; r_name : string; r_shape : option shape }.

  (** writer.rs:30-54, introspection.rs:187-197 *)
  Definition root_field (f : rfield) : outcome (string * value) :=
    obind (if Nat.eqb (r_id f) (s_type_field g) then
             match type_definition_by_name (r_name f) with
             | Some id => if hidden_type id then Done RNull
                          else obind (unwrap (r_shape f)) (fun s => object s (TgNamed id))
             | None => Done RNull
             end
           else if Nat.eqb (r_id f) (s_schema_field g) then
             obind (unwrap (r_shape f)) (fun s => object s TgSchema)
           else Panic) (fun v => Done (r_key f, v)).
  (** writer.rs:30-70 — [write]; the fields are added to the object of the query. *)
  Definition write (fields : list rfield) (typenames : list string) : outcome (list (string * value)) :=
    obind (each root_field fields) (fun l =>
    match typenames with
    | [] => Done l
    | _ => obind (unwrap (nth_error (s_types g) (s_query g))) (fun q =>
           Done (l ++ map (fun k => (k, RStr (t_name q))) typenames))
    end).
End writer.
