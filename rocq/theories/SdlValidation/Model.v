(* Validation of GraphQL schema documents.

   Source: crates/graphql-schema-validation/src.

   Simplifications, for the whole file:
   - The parser (async_graphql_parser) is not modelled: a document is what it
     returns.  Positions and descriptions, which only decorate messages, are
     left out; so are the values of defaults and the arguments of directives,
     which no check reads.
   - A diagnostic is the check that failed with the names it is about rather
     than a text (`Syntax error` is the parser's and has no counterpart).
   - `HashMap`s are association lists.  Only `args.into_values()`
     (interface_implementers.rs 123) depends on an order; here it is the order
     of insertion.
   - Indexing out of bounds and `unreachable!` are `None`. *)
From Coq Require Import String List Bool Arith.
Import ListNotations.
Local Open Scope string_scope.
Local Open Scope list_scope.

Definition name := string.

(* async_graphql_parser types::Type / BaseType: every level says whether it is
   nullable. *)
Inductive ty :=
| Named (n : name) (nullable : bool)
| ListOf (t : ty) (nullable : bool).

Definition nullable (t : ty) : bool :=
  match t with Named _ b => b | ListOf _ b => b end.

Fixpoint ty_eqb (a b : ty) : bool :=
  match a, b with
  | Named n x, Named m y => String.eqb n m && Bool.eqb x y
  | ListOf s x, ListOf t y => ty_eqb s t && Bool.eqb x y
  | _, _ => false
  end.

(* validate.rs 53-58 `extract_type_name` *)
Fixpoint type_name (t : ty) : name :=
  match t with Named n _ => n | ListOf t _ => type_name t end.

(* types::InputValueDefinition: arguments and the fields of input objects;
   `has_default` is `default_value.is_some()`. *)
Record input_value := mkinput
  { iv_name : name; iv_type : ty; has_default : bool; iv_dirs : list name }.

(* types::FieldDefinition *)
Record field := mkfield
  { f_name : name; f_args : list input_value; f_type : ty; f_dirs : list name }.

(* types::TypeKind; an enum value is its name with its directives. *)
Inductive kind :=
| KScalar
| KObject (implements : list name) (fields : list field)
| KInterface (implements : list name) (fields : list field)
| KUnion (members : list name)
| KEnum (values : list (name * list name))
| KInput (fields : list input_value).

(* types::TypeDefinition *)
Record typedef := mktype
  { t_extend : bool; t_name : name; t_dirs : list name; t_kind : kind }.

(* types::DirectiveLocation *)
Inductive location :=
| LQuery | LMutation | LSubscription | LField | LFragmentDefinition
| LFragmentSpread | LInlineFragment | LVariableDefinition
| LSchema | LScalar | LObject | LFieldDefinition | LArgumentDefinition
| LInterface | LUnion | LEnum | LEnumValue | LInputObject
| LInputFieldDefinition.

Definition location_eqb (a b : location) : bool :=
  match a, b with
  | LQuery, LQuery | LMutation, LMutation | LSubscription, LSubscription
  | LField, LField | LFragmentDefinition, LFragmentDefinition
  | LFragmentSpread, LFragmentSpread | LInlineFragment, LInlineFragment
  | LVariableDefinition, LVariableDefinition | LSchema, LSchema
  | LScalar, LScalar | LObject, LObject | LFieldDefinition, LFieldDefinition
  | LArgumentDefinition, LArgumentDefinition | LInterface, LInterface
  | LUnion, LUnion | LEnum, LEnum | LEnumValue, LEnumValue
  | LInputObject, LInputObject
  | LInputFieldDefinition, LInputFieldDefinition => true
  | _, _ => false
  end.

(* types::DirectiveDefinition *)
Record dirdef := mkdir
  { d_name : name; d_repeatable : bool; d_locations : list location;
    d_args : list input_value }.

(* types::SchemaDefinition and context.rs 171-179 *)
Record schemadef := mkschema
  { s_extend : bool; s_dirs : list name; s_query : option name;
    s_mutation : option name; s_subscription : option name }.

(* types::TypeSystemDefinition, types::ServiceDocument *)
Inductive definition :=
| DSchema (s : schemadef)
| DType (t : typedef)
| DDirective (d : dirdef).

Definition document := list definition.

(* lib.rs 42-53 `Options` *)
Record options := mkoptions { forbid_unknown : bool; draft : bool }.

(* Where an unknown type, an output type or an input object was found: the
   texts that the three closures `location` build. *)
Inductive place :=
| AtField (ty f : name)
| AtArgument (ty f a : name)
| AtDirective (d a : name).

Inductive ext_kind := XObject | XInterface | XInput | XUnion | XEnum | XScalar.

Inductive error :=
| ReservedName (n : name)
| DoubleUnderscore (n : name)
| DuplicateDefinition (n : name)
| DirectiveName
| NotRepeatable (d : name)
| BadLocation (d : name) (l : location)
| DuplicateSchema
| RootTwice (n : name)
| RootUnknown (root n : name)
| RootNotObject (root n : name)
| RootShouldBeObject (root : name)
| DuplicateImplements (t i : name)
| UnknownInterface (t i : name)
| NotAnInterface (t i : name)
| MissingTransitive (t i via : name)
| MissingField (t f i : name)
| BadFieldType (t f i : name)
| ArgumentType (t f a i : name)
| ArgumentRequired (t f a i : name)
| ArgumentMissing (t f a i : name)
| EmptyObject (t : name)
| EmptyInterface (t : name)
| EmptyInput (t : name)
| FieldName (t f : name)
| DuplicateField (t f : name)
| DuplicateArgument (t f a : name)
| ArgumentName
| RequiredDeprecated (t f a : name)
| UnknownType (n : name) (at_ : place)
| OutputInInput (n : name) (at_ : place)
| InputInOutput (n : name) (at_ : place)
| DuplicateEnumValue (t v : name)
| InputCycle (t : name) (chain : list name)
| UnionUnknown (u m : name)
| UnionNotObject (u m : name)
| UnionDuplicate (u m : name)
| ExtendUnknown (k : ext_kind) (n : name).

(* ------------------------------------------------------------------ maps *)

Section Maps.
Context {A : Type}.

(* HashMap::get *)
Fixpoint get (n : name) (m : list (name * A)) : option A :=
  match m with
  | nil => None
  | (k, v) :: m' => if String.eqb k n then Some v else get n m'
  end.

(* HashMap::insert: a key that is there keeps its place and gets the value *)
Fixpoint insert (n : name) (v : A) (m : list (name * A)) : list (name * A) :=
  match m with
  | nil => [(n, v)]
  | (k, w) :: m' => if String.eqb k n then (k, v) :: m' else (k, w) :: insert n v m'
  end.
End Maps.

(* `map.entry(n).or_default().push(v)` *)
Definition push {A} (n : name) (v : A) (m : list (name * list A)) : list (name * list A) :=
  insert n ((match get n m with Some l => l | None => [] end) ++ [v]) m.

(* `map.entry(n).or_default().extend(vs)` *)
Definition extend {A} (n : name) (vs : list A) (m : list (name * list A)) : list (name * list A) :=
  insert n ((match get n m with Some l => l | None => [] end) ++ vs) m.

(* `map.get(n).into_iter().flatten()` *)
Definition get_all {A} (n : name) (m : list (name * list A)) : list A :=
  match get n m with Some l => l | None => [] end.

(* context.rs 8-37 `Context`, without the document, the diagnostics, the
   options and the buffer *)
Record context := mkcontext
  { definition_names : list (name * typedef);
    extension_names : list (name * list typedef);
    directive_names : list (name * dirdef);
    extended_fields : list (name * list (list field));
    extended_unions : list (name * list (list name));
    extended_interface_implementations : list (name * list name);
    extended_enums : list (name * list (list (name * list name))) }.

Definition empty_context : context := mkcontext [] [] [] [] [] [] [].

(* Validators push diagnostics or panic. *)
Definition report := option (list error).

Definition no_error : report := Some [].
Definition push_error (e : error) : report := Some [e].

Definition andthen (a b : report) : report :=
  match a with
  | None => None
  | Some x => match b with None => None | Some y => Some (x ++ y) end
  end.

Infix ";;" := andthen (at level 60, right associativity).

(* `for x in l { f(x) }` *)
Fixpoint for_each {A} (f : A -> report) (l : list A) : report :=
  match l with
  | nil => no_error
  | x :: l' => f x ;; for_each f l'
  end.

Definition when (b : bool) (e : error) : report := if b then push_error e else no_error.

(* core::str::starts_with("__") *)
Definition starts_dunder (s : name) : bool := String.prefix "__" s.

(* scalars.rs 21-23 `is_builtin_scalar` *)
Definition is_builtin_scalar (n : name) : bool :=
  existsb (String.eqb n) ["String"; "ID"; "Float"; "Boolean"; "Int"].

(* context.rs 153-168 `find_duplicates`: the pairs that the handler is called
   with.  `buf` is `strings_buf`, `idx` the index of the next name. *)
Fixpoint duplicates_from (buf : list (name * nat)) (idx : nat) (names : list name) : list (nat * nat) :=
  match names with
  | nil => []
  | n :: rest =>
      (match get n buf with Some previous => [(previous, idx)] | None => [] end)
        ++ duplicates_from (insert n idx buf) (S idx) rest
  end.

Definition find_duplicates (names : list name) (handle : nat -> nat -> report) : report :=
  for_each (fun p => handle (fst p) (snd p)) (duplicates_from [] 0 names).

(* `l[i]` *)
Definition index {A} (l : list A) (i : nat) (f : A -> report) : report :=
  match nth_error l i with Some x => f x | None => None end.

Section Validators.
Variable opts : options.
Variable ctx : context.

Definition definition_of (n : name) : option typedef := get n (definition_names ctx).

(* context.rs 64-147 `with_enum_values`, `with_union_members`, `with_fields`,
   `with_implements`: what the handler is given *)
Definition all_enum_values (n : name) (base : list (name * list name)) :=
  base ++ concat (get_all n (extended_enums ctx)).
Definition all_union_members (n : name) (base : list name) :=
  base ++ concat (get_all n (extended_unions ctx)).
Definition all_fields (n : name) (base : list field) :=
  base ++ concat (get_all n (extended_fields ctx)).
Definition all_implements (n : name) (base : list name) :=
  base ++ get_all n (extended_interface_implementations ctx).

(* directive_definitions.rs 17-48 `validate_directives` *)
Definition validate_directives (directives : list name) (l : location) : report :=
  find_duplicates directives (fun first _ =>
    index directives first (fun d =>
      if match get d (directive_names ctx) with Some def => d_repeatable def | None => true end
      then no_error else push_error (NotRepeatable d))) ;;
  for_each (fun d =>
    match get d (directive_names ctx) with
    | Some def => when (negb (existsb (fun x => location_eqb x l) (d_locations def))) (BadLocation d l)
    | None => no_error
    end) directives.

(* input_types.rs 11-24 `validate_input_type` *)
Inductive input_result := InputOk | InputUnknown | NotAnInput.

Definition validate_input_type (n : name) : input_result :=
  if is_builtin_scalar n then InputOk
  else match definition_of n with
       | None => InputUnknown
       | Some def =>
           match t_kind def with
           | KScalar | KEnum _ | KInput _ => InputOk
           | KObject _ _ | KInterface _ _ | KUnion _ => NotAnInput
           end
       end.

(* the `match` on its result, in arguments.rs 34-40, input_objects.rs 28-34
   and type_definition.rs 133-139 *)
Definition check_input (t : ty) (at_ : place) : report :=
  match validate_input_type (type_name t) with
  | InputOk => no_error
  | InputUnknown => push_error (UnknownType (type_name t) at_)
  | NotAnInput => push_error (OutputInInput (type_name t) at_)
  end.

(* output_types.rs 11-32 `validate_output_type` *)
Inductive output_result := OutputOk | OutputUnknown | OutputIsInput.

Definition validate_output_type (n : name) : output_result :=
  if is_builtin_scalar n then OutputOk
  else match (match definition_of n with
              | Some def => Some def
              | None => if forbid_unknown opts then None
                        else match get n (extension_names ctx) with
                             | Some l => hd_error l
                             | None => None
                             end
              end) with
       | None => OutputUnknown
       | Some def =>
           match t_kind def with
           | KScalar | KObject _ _ | KInterface _ _ | KUnion _ | KEnum _ => OutputOk
           | KInput _ => OutputIsInput
           end
       end.

(* the `match` on its result, in objects.rs 25-33 and interfaces.rs 23-31 *)
Definition check_output (t : ty) (at_ : place) : report :=
  match validate_output_type (type_name t) with
  | OutputOk => no_error
  | OutputUnknown => push_error (UnknownType (type_name t) at_)
  | OutputIsInput => push_error (InputInOutput (type_name t) at_)
  end.

(* arguments.rs 3-55 `validate_arguments` *)
Definition validate_argument (parent f : name) (arg : input_value) : report :=
  when (starts_dunder (iv_name arg)) ArgumentName ;;
  check_input (iv_type arg) (AtArgument parent f (iv_name arg)) ;;
  (if draft opts
   then when (negb (nullable (iv_type arg)) && negb (has_default arg) &&
              existsb (String.eqb "deprecated") (iv_dirs arg))
             (RequiredDeprecated parent f (iv_name arg))
   else no_error) ;;
  validate_directives (iv_dirs arg) LArgumentDefinition.

Definition validate_arguments (parent f : name) (args : list input_value) : report :=
  find_duplicates (map iv_name args) (fun _ duplicate =>
    index args duplicate (fun arg => push_error (DuplicateArgument parent f (iv_name arg)))) ;;
  for_each (validate_argument parent f) args.

(* object_field.rs 3-26 `validate_object_field` *)
Definition validate_object_field (parent : name) (f : field) : report :=
  validate_directives (f_dirs f) LFieldDefinition ;;
  when (starts_dunder (f_name f)) (FieldName parent (f_name f)) ;;
  validate_arguments parent (f_name f) (f_args f).

(* interface_implementers.rs 235-248 `validate_implementer_wrapper_types` *)
Fixpoint wrapper_types_fit (candidate iface : ty) : bool :=
  if negb (nullable iface) && nullable candidate then false
  else match candidate, iface with
       | Named _ _, Named _ _ => true
       | ListOf c _, ListOf i _ => wrapper_types_fit c i
       | _, _ => false
       end.

(* interface_implementers.rs 184-233 `validate_implementer_inner_type` *)
Definition inner_type_fits (candidate iface : name) : bool :=
  if String.eqb candidate iface then true
  else match option_map t_kind (definition_of iface) with
       | Some (KUnion members) => existsb (String.eqb candidate) members
       | Some (KInterface _ _) =>
           match option_map t_kind (definition_of candidate) with
           | Some (KObject impls _) => existsb (String.eqb iface) impls
           | Some (KInterface impls _) => existsb (String.eqb iface) impls
           | _ => false
           end
       | _ => false
       end.

(* interface_implementers.rs 155-182
   `validate_field_type_implements_interface_field` *)
Definition check_field_type (iface implementer : name) (candidate ifield : field) : report :=
  if wrapper_types_fit (f_type candidate) (f_type ifield) &&
     inner_type_fits (type_name (f_type candidate)) (type_name (f_type ifield))
  then no_error
  else push_error (BadFieldType implementer (f_name candidate) iface).

(* interface_implementers.rs 104-121: the indexes of the arguments of either
   field, by name *)
Fixpoint candidate_indexes (idx : nat) (args : list input_value)
  (m : list (name * (option nat * option nat))) :=
  match args with
  | nil => m
  | a :: rest => candidate_indexes (S idx) rest (insert (iv_name a) (Some idx, None) m)
  end.

Fixpoint interface_indexes (idx : nat) (args : list input_value)
  (m : list (name * (option nat * option nat))) :=
  match args with
  | nil => m
  | a :: rest =>
      let old := match get (iv_name a) m with Some p => p | None => (None, None) end in
      interface_indexes (S idx) rest (insert (iv_name a) (fst old, Some idx) m)
  end.

(* `idx.map(|idx| &args[idx])` *)
Definition arg_at (args : list input_value) (i : option nat) (f : option input_value -> report) : report :=
  match i with
  | None => f None
  | Some i => index args i (fun a => f (Some a))
  end.

(* interface_implementers.rs 104-153
   `validate_field_arguments_implement_interface_field` *)
Definition check_argument_pair (iface implementer fname : name)
  (candidate ifc : option input_value) : report :=
  match candidate, ifc with
  | Some c, Some i =>
      if ty_eqb (iv_type c) (iv_type i) then no_error
      else push_error (ArgumentType implementer fname (iv_name c) iface)
  | Some c, None =>
      if nullable (iv_type c) then no_error
      else push_error (ArgumentRequired implementer fname (iv_name c) iface)
  | None, Some a => push_error (ArgumentMissing implementer fname (iv_name a) iface)
  | None, None => None
  end.

Definition check_field_arguments (iface implementer : name) (candidate ifield : field) : report :=
  let args := interface_indexes 0 (f_args ifield) (candidate_indexes 0 (f_args candidate) []) in
  for_each (fun e =>
    arg_at (f_args candidate) (fst (snd e)) (fun c =>
      arg_at (f_args ifield) (snd (snd e)) (fun i =>
        check_argument_pair iface implementer (f_name candidate) c i))) args.

(* interface_implementers.rs 62-102 `validate_fields_implement_interface`: the
   missing fields are reported after all else *)
Definition find_field (n : name) (l : list field) : option field :=
  find (fun f => String.eqb (f_name f) n) l.

Definition validate_fields_implement_interface (implementer : name) (fields : list field)
  (iface : name) (iface_fields : list field) : report :=
  let candidates := all_fields implementer fields in
  for_each (fun f =>
    match find_field (f_name f) candidates with
    | Some c =>
        check_field_type iface implementer c f ;; check_field_arguments iface implementer c f
    | None => no_error
    end) iface_fields ;;
  for_each (fun f =>
    match find_field (f_name f) candidates with
    | Some _ => no_error
    | None => push_error (MissingField implementer (f_name f) iface)
    end) iface_fields.

(* interface_implementers.rs 250-268
   `validate_implements_interface_transitively` *)
Definition validate_transitively (parent : name) (implements : list name)
  (iface : name) (iface_implements : list name) : report :=
  for_each (fun i => when (negb (existsb (fun o => String.eqb o i) implements))
                          (MissingTransitive parent i iface)) iface_implements.

(* interface_implementers.rs 7-60 `validate_implements_list` *)
Definition validate_implements (parent : name) (implements : list name) (fields : list field)
  (iface_name : name) : report :=
  match (match definition_of iface_name with
         | Some def => Some def
         | None => if forbid_unknown opts then None
                   else match get iface_name (extension_names ctx) with
                        | Some (def :: _) => Some def
                        | _ => None
                        end
         end) with
  | None => push_error (UnknownInterface parent iface_name)
  | Some def =>
      match t_kind def with
      | KInterface iface_implements iface_fields =>
          validate_transitively parent implements (t_name def) iface_implements ;;
          validate_fields_implement_interface parent fields (t_name def) iface_fields
      | _ => push_error (NotAnInterface parent (t_name def))
      end
  end.

Definition validate_implements_list (parent : name) (implements : list name) (fields : list field) : report :=
  find_duplicates implements (fun idx _ =>
    index implements idx (fun i => push_error (DuplicateImplements parent i))) ;;
  for_each (validate_implements parent implements fields) implements.

(* objects.rs 3-44 `validate_object` *)
Definition validate_output_field (parent : name) (f : field) : report :=
  validate_object_field parent f ;; check_output (f_type f) (AtField parent (f_name f)).

Definition validate_object (parent : name) (dirs : list name)
  (implements : list name) (fields : list field) : report :=
  validate_directives dirs LObject ;;
  validate_implements_list parent (all_implements parent implements) fields ;;
  let fs := all_fields parent fields in
  when (match fs with nil => true | _ => false end) (EmptyObject parent) ;;
  for_each (validate_output_field parent) fs ;;
  find_duplicates (map f_name fs) (fun _ idx =>
    index fs idx (fun f => push_error (DuplicateField parent (f_name f)))).

(* interfaces.rs 3-33 `validate_interface` *)
Definition validate_interface (parent : name) (dirs : list name)
  (implements : list name) (fields : list field) : report :=
  validate_directives dirs LInterface ;;
  validate_implements_list parent (all_implements parent implements) fields ;;
  when (match fields with nil => true | _ => false end) (EmptyInterface parent) ;;
  for_each (validate_output_field parent) fields.

(* unions.rs 20-53 `validate_union_members` *)
Definition validate_union (u : name) (dirs : list name) (members : list name) : report :=
  validate_directives dirs LUnion ;;
  let ms := all_union_members u members in
  for_each (fun m =>
    match definition_of m with
    | Some def => match t_kind def with
                  | KObject _ _ => no_error
                  | _ => push_error (UnionNotObject u m)
                  end
    | None => push_error (UnionUnknown u m)
    end) ms ;;
  find_duplicates ms (fun first _ =>
    index ms first (fun m => push_error (UnionDuplicate u m))).

(* enums.rs 3-23 `validate_enum_members`: `enm.values[idx]` looks among the
   values of the definition for the index of a value that may be one of an
   extension *)
Definition validate_enum (e : name) (dirs : list name) (values : list (name * list name)) : report :=
  validate_directives dirs LEnum ;;
  let vs := all_enum_values e values in
  find_duplicates (map fst vs) (fun idx _ =>
    index values idx (fun v => push_error (DuplicateEnumValue e (fst v)))) ;;
  for_each (fun v => validate_directives (snd v) LEnumValue) vs.

(* input_object_cycles.rs 20-54 `references_input_object_rec`: the chain,
   innermost field first, and the visited names.  `None` only when the fuel is
   used up. *)
Fixpoint references_input_object (fuel : nat) (n : name) (fields : list input_value)
  (visited : list name) {struct fuel} : option (option (list name) * list name) :=
  match fuel with
  | O => None
  | S fuel' =>
      (fix loop (fields : list input_value) (visited : list name)
         : option (option (list name) * list name) :=
         match fields with
         | nil => Some (None, visited)
         | f :: rest =>
             match iv_type f with
             | ListOf _ _ => loop rest visited
             | Named ft true => loop rest visited
             | Named ft false =>
                 if String.eqb ft n then Some (Some [iv_name f], visited)
                 else if existsb (String.eqb ft) visited then loop rest visited
                 else match option_map t_kind (definition_of ft) with
                      | Some (KInput inner) =>
                          match references_input_object fuel' n inner (ft :: visited) with
                          | None => None
                          | Some (Some chain, v) => Some (Some (chain ++ [iv_name f]), v)
                          | Some (None, v) => loop rest v
                          end
                      | _ => loop rest visited
                      end
             end
         end) fields visited
  end.

(* input_object_cycles.rs 6-18 `input_object_cycles` *)
Definition input_object_cycles (n : name) (fields : list input_value) : report :=
  match references_input_object (S (length (definition_names ctx))) n fields [] with
  | None => None
  | Some (Some chain, _) => push_error (InputCycle n (rev chain))
  | Some (None, _) => no_error
  end.

(* input_objects.rs 3-37 `validate_input_object` *)
Definition validate_input_field (parent : name) (f : input_value) : report :=
  validate_directives (iv_dirs f) LInputFieldDefinition ;;
  check_input (iv_type f) (AtField parent (iv_name f)).

Definition validate_input_object (parent : name) (dirs : list name) (fields : list input_value) : report :=
  validate_directives dirs LInputObject ;;
  when (match fields with nil => true | _ => false end) (EmptyInput parent) ;;
  for_each (validate_input_field parent) fields ;;
  input_object_cycles parent fields.

(* `validate_*_extension`: objects.rs 46-62, interfaces.rs 35-51,
   input_objects.rs 39-60, unions.rs 3-18, enums.rs 25-39, scalars.rs 3-19 *)
Definition extends_known (n : name) (is_kind : kind -> bool) : bool :=
  match definition_of n with Some def => is_kind (t_kind def) | None => false end.

Definition is_object (k : kind) := match k with KObject _ _ => true | _ => false end.
Definition is_interface (k : kind) := match k with KInterface _ _ => true | _ => false end.
Definition is_input (k : kind) := match k with KInput _ => true | _ => false end.
Definition is_union (k : kind) := match k with KUnion _ => true | _ => false end.
Definition is_enum (k : kind) := match k with KEnum _ => true | _ => false end.
Definition is_scalar (k : kind) := match k with KScalar => true | _ => false end.

Definition validate_extension (n : name) (dirs : list name) (l : location)
  (known : bool) (k : ext_kind) : report :=
  validate_directives dirs l ;;
  when (forbid_unknown opts && negb known) (ExtendUnknown k n).

(* type_definition.rs 77-124, one definition *)
Definition validate_type (t : typedef) : report :=
  let n := t_name t in
  let ext k l x := validate_extension n (t_dirs t) l (extends_known n k) x in
  match t_kind t with
  | KObject impls fields =>
      if t_extend t then ext is_object LObject XObject
      else validate_object n (t_dirs t) impls fields
  | KInterface impls fields =>
      if t_extend t then ext is_interface LInterface XInterface
      else validate_interface n (t_dirs t) impls fields
  | KInput fields =>
      if t_extend t then ext is_input LInputObject XInput
      else validate_input_object n (t_dirs t) fields
  | KUnion members =>
      if t_extend t then ext is_union LUnion XUnion
      else validate_union n (t_dirs t) members
  | KEnum values =>
      if t_extend t then ext is_enum LEnum XEnum
      else validate_enum n (t_dirs t) values
  | KScalar =>
      if t_extend t
      then validate_extension n (t_dirs t) LScalar (is_builtin_scalar n || extends_known n is_scalar) XScalar
      else no_error
  end.

(* type_definition.rs 126-141 `validate_directiv_definition_arguments` *)
Definition validate_directive_arguments (d : dirdef) : report :=
  for_each (fun a => check_input (iv_type a) (AtDirective (d_name d) (iv_name a))) (d_args d).

(* type_definition.rs 76-125 `validate_definitions_second_pass` *)
Definition second_pass (doc : document) : report :=
  for_each (fun def =>
    match def with
    | DSchema _ => no_error
    | DDirective d => validate_directive_arguments d
    | DType t => validate_type t
    end) doc.

(* schema_definition.rs 36-82 `validate_schema_definition_references` *)
Definition or_default (o : option name) (d : name) : name := match o with Some n => n | None => d end.

Definition check_root (actual : option name) (default : name) : report :=
  match actual with
  | None => no_error
  | Some n =>
      match definition_of n with
      | None => push_error (RootUnknown default n)
      | Some def => if is_object (t_kind def) then no_error
                    else push_error (RootNotObject default (t_name def))
      end
  end.

Definition validate_schema_references (s : schemadef) : report :=
  let q := or_default (s_query s) "Query" in
  let m := or_default (s_mutation s) "Mutation" in
  let u := or_default (s_subscription s) "Subscription" in
  when (String.eqb q m) (RootTwice q) ;;
  when (String.eqb q u) (RootTwice q) ;;
  when (String.eqb m u) (RootTwice m) ;;
  check_root (s_query s) "Query" ;;
  check_root (s_mutation s) "Mutation" ;;
  check_root (s_subscription s) "Subscription".

(* schema_definition.rs 4-34 `validate_schema_definitions`; `seen` is
   `first_definition_pos.is_some()` *)
Fixpoint validate_schema_definitions (seen : bool) (l : list schemadef) : report :=
  match l with
  | nil => no_error
  | s :: rest =>
      validate_directives (s_dirs s) LSchema ;;
      validate_schema_references s ;;
      when (negb (s_extend s) && seen) DuplicateSchema ;;
      validate_schema_definitions (seen || negb (s_extend s)) rest
  end.

(* schema_definition.rs 84-91 `validate_root_types` *)
Definition validate_root_types : report :=
  for_each (fun n =>
    match definition_of n with
    | Some def => when (negb (is_object (t_kind def))) (RootShouldBeObject n)
    | None => no_error
    end) ["Query"; "Mutation"; "Subscription"].

End Validators.

(* type_definition.rs 4-73 `validate_type_definition`, first pass *)
Definition first_pass_type (t : typedef) (ctx : context) : list error * context :=
  let n := t_name t in
  let e1 := if negb (t_extend t) && is_builtin_scalar n && negb (is_scalar (t_kind t))
            then [ReservedName n] else [] in
  let e2 := if starts_dunder n then [DoubleUnderscore n] else [] in
  if t_extend t then
    let ctx1 :=
      match t_kind t with
      | KObject impls fields | KInterface impls fields =>
          mkcontext (definition_names ctx) (extension_names ctx) (directive_names ctx)
            (push n fields (extended_fields ctx)) (extended_unions ctx)
            (extend n impls (extended_interface_implementations ctx)) (extended_enums ctx)
      | KEnum values =>
          mkcontext (definition_names ctx) (extension_names ctx) (directive_names ctx)
            (extended_fields ctx) (extended_unions ctx)
            (extended_interface_implementations ctx) (push n values (extended_enums ctx))
      | KUnion members =>
          mkcontext (definition_names ctx) (extension_names ctx) (directive_names ctx)
            (extended_fields ctx) (push n members (extended_unions ctx))
            (extended_interface_implementations ctx) (extended_enums ctx)
      | _ => ctx
      end in
    (e1 ++ e2,
     mkcontext (definition_names ctx1) (push n t (extension_names ctx1)) (directive_names ctx1)
       (extended_fields ctx1) (extended_unions ctx1)
       (extended_interface_implementations ctx1) (extended_enums ctx1))
  else
    (e1 ++ e2 ++ match get n (definition_names ctx) with
                 | Some _ => [DuplicateDefinition n]
                 | None => []
                 end,
     mkcontext (insert n t (definition_names ctx)) (extension_names ctx) (directive_names ctx)
       (extended_fields ctx) (extended_unions ctx)
       (extended_interface_implementations ctx) (extended_enums ctx)).

(* directive_definitions.rs 3-15 `validate_directive_definition` *)
Definition first_pass_directive (d : dirdef) (ctx : context) : list error * context :=
  (if starts_dunder (d_name d) then [DirectiveName] else [],
   mkcontext (definition_names ctx) (extension_names ctx) (insert (d_name d) d (directive_names ctx))
     (extended_fields ctx) (extended_unions ctx)
     (extended_interface_implementations ctx) (extended_enums ctx)).

(* validate.rs 24-42: the loop over the definitions *)
Fixpoint first_pass (doc : document) (ctx : context) : list error * context :=
  match doc with
  | nil => ([], ctx)
  | def :: rest =>
      let r := match def with
               | DSchema _ => ([], ctx)
               | DType t => first_pass_type t ctx
               | DDirective d => first_pass_directive d ctx
               end in
      let r' := first_pass rest (snd r) in
      (fst r ++ fst r', snd r')
  end.

Fixpoint schema_definitions (doc : document) : list schemadef :=
  match doc with
  | nil => []
  | DSchema s :: rest => s :: schema_definitions rest
  | _ :: rest => schema_definitions rest
  end.

(* validate.rs 24-51 `validate`, lib.rs 17-40 after parsing *)
Definition validate (opts : options) (doc : document) : report :=
  let r := first_pass doc empty_context in
  Some (fst r) ;;
  validate_schema_definitions (snd r) false (schema_definitions doc) ;;
  (match schema_definitions doc with
   | nil => validate_root_types (snd r)
   | _ => no_error
   end) ;;
  second_pass opts (snd r) doc.
