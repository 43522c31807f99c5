(* Composition of subgraphs into one schema.

   Source: crates/graphql-composition/src/{compose,subgraphs,validate,
   emit_federated_graph}.

   Simplifications, for the whole file:
   - Strings stand for themselves: `StringId`s are compared by number in the
     code and by text here, which changes the order of definitions and fields
     in the result only.
   - A `Wrapping` is the list of what it packs (C01 is about the packing).
   - A subgraph is what `ingest_subgraph` stored: its definitions with their
     fields, sorted by name (subgraphs.rs 179-197), and their directives.
     Descriptions, tags, costs, list sizes, deprecations and the directives
     that only extensions read are left out.
   - Diagnostics carry the names they are about rather than a text.
   - Validations that are not modelled (keys, selections, subgraph names,
     override labels, extensions) only add diagnostics: they reject more. *)
From Coq Require Import String List Bool Arith ZArith.
From Verif.SchemaDiff Require Import Search.
Import ListNotations.
Local Open Scope string_scope.
Local Open Scope list_scope.

Definition name := string.

(* crates/graphql-wrapping-types/src/lib.rs 9-27: whether the innermost type is
   required, and for every list, innermost first, whether it is. *)
Record wrapping := mkwrapping { inner_required : bool; lists : list bool }.

(* subgraphs/field_types.rs 6-10 `FieldType` *)
Record ftype := mkftype { base : name; wrap : wrapping }.

Definition wrapping_eqb (a b : wrapping) : bool :=
  Bool.eqb (inner_required a) (inner_required b) &&
  (if list_eq_dec Bool.bool_dec (lists a) (lists b) then true else false).

Definition ftype_eqb (a b : ftype) : bool :=
  String.eqb (base a) (base b) && wrapping_eqb (wrap a) (wrap b).

(* wrapping-types/src/lib.rs 163-168 `is_non_null`, field_types.rs 88-90 *)
Definition is_required (t : ftype) : bool := last (lists (wrap t)) (inner_required (wrap t)).

(* wrapping-types/src/lib.rs 126-129 `without_list` *)
Definition without_list (w : wrapping) : option wrapping :=
  match lists w with
  | nil => None
  | _ => Some (mkwrapping (inner_required w) (removelast (lists w)))
  end.

(* core::iter::Zip::next: what it takes from the first iterator is lost when
   the second has nothing left. *)
Definition zip_next (a b : list bool) : option (bool * bool) * (list bool * list bool) :=
  match a with
  | nil => (None, (nil, b))
  | x :: a' => match b with nil => (None, (a', nil)) | y :: b' => (Some (x, y), (a', b')) end
  end.

(* subgraphs/field_types.rs 45-60: the loop of `compose`.  `s` and `o` are
   what `zipped_wrappers.next()` returned, `a` and `b` what the two iterators
   have left. *)
Fixpoint compose_lists (s o : bool) (a b : list bool) : option bool :=
  match a with
  | nil => match b with nil => Some o | _ => None end
  | x :: a' =>
      match b with
      | nil => match a' with nil => Some o | _ => None end
      | y :: b' => if Bool.eqb s o then compose_lists x y a' b' else None
      end
  end.

(* subgraphs/field_types.rs 26-63 `FieldType::compose` *)
Definition compose_type (self other : ftype) : option bool :=
  if ftype_eqb self other then Some true
  else if negb (String.eqb (base self) (base other)) then None
  else
    match zip_next (lists (wrap self)) (lists (wrap other)) with
    | (None, _) => Some (is_required other)
    | (Some (s, o), (a, b)) =>
        if negb (Bool.eqb (inner_required (wrap self)) (inner_required (wrap other))) then None
        else compose_lists s o a b
    end.

(* subgraphs/field_types.rs 14-16, 19-21 *)
Definition compose_for_input (a b : ftype) : option ftype :=
  option_map (fun r : bool => if r then b else a) (compose_type a b).
Definition compose_for_output (a b : ftype) : option ftype :=
  option_map (fun r : bool => if r then a else b) (compose_type a b).

(* subgraphs/directives.rs 22-31 `Value` *)
Inductive value :=
| VString (s : string)
| VInt (z : Z)
| VFloat (text : string)
| VBoolean (b : bool)
| VEnum (n : name)
| VObject (fs : list (name * value))
| VList (l : list value)
| VNull.

Fixpoint value_eqb (a b : value) : bool :=
  match a, b with
  | VString s, VString s' | VFloat s, VFloat s' | VEnum s, VEnum s' => String.eqb s s'
  | VInt z, VInt z' => Z.eqb z z'
  | VBoolean x, VBoolean y => Bool.eqb x y
  | VObject l, VObject m =>
      (fix go (l m : list (name * value)) : bool :=
         match l, m with
         | nil, nil => true
         | (k, x) :: l', (k', y) :: m' => String.eqb k k' && value_eqb x y && go l' m'
         | _, _ => false
         end) l m
  | VList l, VList m =>
      (fix go (l m : list value) : bool :=
         match l, m with
         | nil, nil => true
         | x :: l', y :: m' => value_eqb x y && go l' m'
         | _, _ => false
         end) l m
  | VNull, VNull => true
  | _, _ => false
  end.

(* subgraphs/directives.rs 33-66: what is known of a directive site.
   `internal` and `requires_list` are the `CompositeInternal` and the
   `CompositeRequire` (with a list) of `ir_directives`. *)
Record directives := mkdirectives {
  shareable : bool; external : bool; inaccessible : bool; interface_object : bool; one_of : bool;
  authenticated : bool; internal : bool; requires_list : bool; has_requires : bool; has_provides : bool;
  overrides : option name; scopes : list (list name); policies : list (list name) }.

Definition plain : directives :=
  mkdirectives false false false false false false false false false false None nil nil.

(* subgraphs/fields.rs 20-42 `ArgumentRecord` *)
Record argument := mkargument { a_name : name; a_type : ftype; a_default : option value; a_dirs : directives }.

(* subgraphs/fields.rs 44-60 `FieldTuple`; `f_default` is that of input fields *)
Record field := mkfield {
  f_name : name; f_type : ftype; f_args : list argument; f_default : option value; f_dirs : directives }.

(* subgraphs/definitions.rs 34-42 *)
Inductive kind := KObject | KInterface | KUnion | KInputObject | KScalar | KEnum.

Definition kind_eqb (a b : kind) : bool :=
  match a, b with
  | KObject, KObject | KInterface, KInterface | KUnion, KUnion
  | KInputObject, KInputObject | KScalar, KScalar | KEnum, KEnum => true
  | _, _ => false
  end.

(* subgraphs/keys.rs 166-181: a selection, without arguments and directives *)
Inductive selection :=
| SField (n : name) (sub : list selection)
| SInline (on : name) (sub : list selection).

Fixpoint selection_eqb (a b : selection) : bool :=
  let go := fix go (l m : list selection) : bool :=
    match l, m with
    | nil, nil => true
    | x :: l', y :: m' => selection_eqb x y && go l' m'
    | _, _ => false
    end in
  match a, b with
  | SField n l, SField n' m | SInline n l, SInline n' m => String.eqb n n' && go l m
  | _, _ => false
  end.

Fixpoint selections_eqb (l m : list selection) : bool :=
  match l, m with
  | nil, nil => true
  | x :: l', y :: m' => selection_eqb x y && selections_eqb l' m'
  | _, _ => false
  end.

Record key := mkkey { k_fields : list selection; k_resolvable : bool }.

(* subgraphs/definitions.rs 17-32 `Definition`, with what belongs to it *)
Record definition := mkdef {
  d_name : name; d_kind : kind; d_fields : list field; d_values : list (name * directives);
  d_members : list name; d_keys : list key; d_dirs : directives }.

(* subgraphs/top.rs 80-98 *)
Inductive spec := ApolloV1 | ApolloV2 | CompositeSchemas.

(* subgraphs/top.rs 52-64 `Subgraph`.  `g_impls`: interface and implementer
   (definitions.rs 118-141). *)
Record subgraph := mkgraph {
  g_name : name; g_spec : spec; g_defs : list definition; g_impls : list (name * name);
  g_query : option name; g_mutation : option name; g_subscription : option name }.

Definition is_v1 (g : subgraph) : bool := match g_spec g with ApolloV1 => true | _ => false end.
Definition is_v2 (g : subgraph) : bool := match g_spec g with ApolloV2 => true | _ => false end.

(* definitions.rs 45-47 `definition_by_name_id` *)
Definition definition_by_name (g : subgraph) (n : name) : option definition :=
  find (fun d => String.eqb n (d_name d)) (g_defs g).

(* fields.rs 165-175 `field_by_name`, 116-128 `argument_by_name` *)
Definition field_by_name (d : definition) (n : name) : option field :=
  find (fun f => String.eqb n (f_name f)) (d_fields d).
Definition argument_by_name (f : field) (n : name) : option argument :=
  find (fun a => String.eqb n (a_name a)) (f_args f).

(* The views: a definition, a field or an argument with where it is. *)
Record dview := mkdview { v_graph : subgraph; v_def : definition }.
Record fview := mkfview { v_parent : dview; v_field : field }.
Record aview := mkaview { v_of : fview; v_arg : argument }.

Definition fields_of (d : dview) : list fview := map (mkfview d) (d_fields (v_def d)).
Definition args_of (f : fview) : list aview := map (mkaview f) (f_args (v_field f)).
Definition vf_name (f : fview) : name := f_name (v_field f).
Definition va_name (a : aview) : name := a_name (v_arg a).

(* What composition adds to its context, in order.  An item ends up in the
   `CompositionIr` (composition_ir.rs 19-49). *)
Record oinput := mkoinput { oi_name : name; oi_type : ftype; oi_default : option value; oi_dirs : directives }.
Record ofield := mkofield { of_name : name; of_type : ftype; of_args : list oinput; of_dirs : directives }.

Inductive item :=
| IScalar (n : name) (d : directives)
| IEnum (n : name) (values : list (name * directives)) (d : directives)
| IInput (n : name) (fields : list oinput) (d : directives)
| IObject (n : name) (d : directives)
| IInterface (n : name) (d : directives)
| IUnion (n : name) (d : directives)
| IMember (u m : name)
| IField (parent : name) (f : ofield).

Inductive diag :=
| NoSubgraphs | NoRoots
| KindMismatch (n : name)
| Entityness (n : name)
| EmptyEnum (n : name)
| EnumMismatch (n : name)
| RequiredInputField (n f : name)
| RequiredArgument (n f a : name)
| ConflictingTypes (n f : name)
| ConflictingArgumentTypes (n f a : name)
| NotAList (n f : name)
| ConflictingDefaults (n f a : name)
| InaccessibleArgumentType (n f a : name)
| InaccessibleFieldType (n f : name)
| FieldSharing (n f : name)
| MissingShareable (n f : name)
| ExternalRequires (n f : name)
| ExternalProvides (n f : name)
| OverrideSource (n f : name)
| ReservedName
| ShareableInterface (n f : name)
| NotImplemented (i f n : name)
| EntityInterface (n : name)
| SubscriptionShareable.

Inductive event := Item (i : item) | Diag (d : diag).

Definition str_leb (a b : string) : bool := match String.compare a b with Gt => false | _ => true end.

(* `sort_by_key` on the name, then every run of the same name:
   compose/fields.rs 5-32, object.rs 29-38, input_object.rs 33-42,
   enums.rs 126-128 *)
Fixpoint chunk_by {A} (k : A -> name) (l : list A) : list (list A) :=
  match l with
  | nil => nil
  | x :: r =>
      match chunk_by k r with
      | (y :: c) :: cs => if String.eqb (k x) (k y) then (x :: y :: c) :: cs else [x] :: (y :: c) :: cs
      | cs => [x] :: cs
      end
  end.
Definition groups {A} (k : A -> name) (l : list A) : list (list A) :=
  chunk_by k (sort (fun x y => str_leb (k x) (k y)) l).

Definition mem (n : name) (l : list name) : bool := existsb (String.eqb n) l.
Fixpoint distinct {A} (eqb : A -> A -> bool) (l : list A) : list A :=
  match l with
  | nil => nil
  | x :: r => if existsb (eqb x) r then distinct eqb r else x :: distinct eqb r
  end.
Fixpoint names_eqb (l m : list name) : bool :=
  match l, m with
  | nil, nil => true
  | x :: l', y :: m' => String.eqb x y && names_eqb l' m'
  | _, _ => false
  end.

(* compose/directives.rs 22-195 `collect_composed_directives`, for the
   directives that are modelled.  Scopes and policies are also sorted. *)
Definition collect (l : list directives) : directives :=
  mkdirectives false false (existsb inaccessible l) false (existsb one_of l) (existsb authenticated l)
    false false false false None
    (distinct names_eqb (flat_map scopes l)) (distinct names_eqb (flat_map policies l)).

(* compose/fields.rs 48-115 `compose_field_types`: the first field's type is
   composed with those of the others, from left to right. *)
Definition batched (f : field) : bool := existsb (fun a => requires_list (a_dirs a)) (f_args f).

Definition own_type (f : field) : option ftype :=
  if batched f then option_map (mkftype (base (f_type f))) (without_list (wrap (f_type f)))
  else Some (f_type f).

Fixpoint fold_types (op : ftype -> ftype -> option ftype) (n : name) (t : ftype) (l : list fview) : ftype + diag :=
  match l with
  | nil => inl t
  | f :: r =>
      match own_type (v_field f) with
      | None => inr (NotAList n (vf_name f))
      | Some u =>
          match op t u with
          | None => inr (ConflictingTypes n (vf_name f))
          | Some t' => fold_types op n t' r
          end
      end
  end.

Definition compose_field_types (op : ftype -> ftype -> option ftype) (l : list fview) : option (ftype + diag) :=
  match l with
  | nil => None
  | f :: r =>
      let n := d_name (v_def (v_parent f)) in
      match own_type (v_field f) with
      | None => Some (inr (NotAList n (vf_name f)))
      | Some t => Some (fold_types op n t r)
      end
  end.

(* compose/fields.rs 117-151 `compose_argument_types` *)
Fixpoint fold_arg_types (t : ftype) (l : list aview) : option ftype :=
  match l with
  | nil => Some t
  | a :: r => match compose_for_input t (a_type (v_arg a)) with None => None | Some t' => fold_arg_types t' r end
  end.

(* compose/object.rs 111-147 `compose_field_argument_defaults` *)
Fixpoint first_default (l : list aview) : option value :=
  match l with
  | nil => None
  | a :: r => match a_default (v_arg a) with Some v => Some v | None => first_default r end
  end.
Definition conflicting_defaults (l : list aview) : list aview :=
  match first_default l with
  | None => nil
  | Some v =>
      filter (fun a => match a_default (v_arg a) with Some u => negb (value_eqb v u) | None => false end) l
  end.

(* whether a type, in the subgraph where it is used, is inaccessible *)
Definition type_inaccessible (g : subgraph) (t : ftype) : bool :=
  match definition_by_name g (base t) with Some d => inaccessible (d_dirs d) | None => false end.

Definition graph_of (f : fview) : subgraph := v_graph (v_parent f).
Definition parent_of (f : fview) : name := d_name (v_def (v_parent f)).

(* compose/object.rs 5-101 `merge_field_arguments`: one group of arguments of
   the same name.  `n` and `fn` are the names of the type and of the field. *)
Definition merge_argument (n fn : name) (intersection : list name) (l : list aview) : list diag * list oinput :=
  match l with
  | nil => (nil, nil)
  | first :: rest =>
      let an := va_name first in
      let defaults := map (fun _ => ConflictingDefaults n fn an) (conflicting_defaults l) in
      if negb (mem an intersection) then
        (defaults ++ (if existsb (fun a => is_required (a_type (v_arg a))) l then [RequiredArgument n fn an] else nil), nil)
      else
        match fold_arg_types (a_type (v_arg first)) rest with
        | None => (defaults ++ [ConflictingArgumentTypes n fn an], nil)
        | Some t =>
            (defaults ++
             (if existsb (fun a => type_inaccessible (graph_of (v_of a)) (a_type (v_arg a))) l &&
                 negb (existsb (fun a => inaccessible (a_dirs (v_arg a))) l)
              then [InaccessibleArgumentType n fn an] else nil),
             [mkoinput an t (first_default l) (collect (map (fun a => a_dirs (v_arg a)) l))])
        end
  end.

Definition argument_intersection (fields : list fview) : list name :=
  match fields with
  | nil => nil
  | first :: rest =>
      filter (fun an => forallb (fun f => match argument_by_name (v_field f) an with Some _ => true | None => false end) rest)
        (map a_name (f_args (v_field first)))
  end.

Definition merge_field_arguments (fields : list fview) : list diag * list oinput :=
  match fields with
  | nil => (nil, nil)
  | first :: _ =>
      let parts := map (merge_argument (parent_of first) (vf_name first) (argument_intersection fields))
                     (groups va_name (flat_map args_of fields)) in
      (flat_map fst parts, flat_map snd parts)
  end.

(* subgraphs/fields.rs 130-145 `is_part_of_key` *)
Fixpoint selects (n : name) (s : selection) : bool :=
  match s with
  | SField m _ => String.eqb m n
  | SInline _ sub => existsb (selects n) sub
  end.
Definition is_part_of_key (f : fview) : bool :=
  existsb (fun k => existsb (selects (vf_name f)) (k_fields k)) (d_keys (v_def (v_parent f))).

(* validate/composite_schemas/post_merge.rs 9-65 `invalid_field_sharing` *)
Definition is_source (f : fview) : bool :=
  let d := f_dirs (v_field f) in
  match overrides d with None => true | Some _ => false end &&
  negb (external d) && negb (external (d_dirs (v_def (v_parent f)))) && negb (internal d) && negb (is_v1 (graph_of f)).
Definition invalid_field_sharing (fields : list fview) : list diag :=
  if existsb (fun f => is_part_of_key f || shareable (f_dirs (v_field f)) || shareable (d_dirs (v_def (v_parent f)))) fields
  then nil
  else match filter is_source fields with
       | f :: _ :: _ => [FieldSharing (parent_of f) (vf_name f)]
       | _ => nil
       end.

(* compose/validate.rs 4-88 `override_source_has_override`: one diagnostic for
   every subgraph that two fields override *)
Definition override_source_has_override (fields : list fview) : list diag :=
  let from := flat_map (fun f => match overrides (f_dirs (v_field f)) with Some s => [(s, f)] | None => nil end) fields in
  flat_map (fun l => match l with (_, f) :: _ :: _ => [OverrideSource (parent_of f) (vf_name f)] | _ => nil end)
    (groups fst from).

(* compose/object.rs 258-318 `ingest_join_field_directives`, its diagnostics *)
Definition external_diags (f : fview) : list diag :=
  let d := f_dirs (v_field f) in
  let ext := external d || external (d_dirs (v_def (v_parent f))) in
  (if has_requires d && ext then [ExternalRequires (parent_of f) (vf_name f)] else nil) ++
  (if has_provides d && ext then [ExternalProvides (parent_of f) (vf_name f)] else nil).

(* compose/object.rs 197-256 `compose_field` *)
Definition is_object (d : definition) : bool := kind_eqb (d_kind d) KObject.
Definition compose_field (fields : list fview) : list diag * option ofield :=
  match fields with
  | nil => (nil, None)
  | first :: _ =>
      let n := parent_of first in
      let sharing := if is_object (v_def (v_parent first)) then invalid_field_sharing fields else nil in
      let hidden :=
        if existsb (fun f => negb (inaccessible (f_dirs (v_field f))) && type_inaccessible (graph_of f) (f_type (v_field f))) fields
        then [InaccessibleFieldType n (vf_name first)] else nil in
      let (adiags, args) := merge_field_arguments fields in
      match compose_field_types compose_for_output fields with
      | None => (sharing ++ hidden ++ adiags, None)
      | Some (inr d) => (sharing ++ hidden ++ adiags ++ [d], None)
      | Some (inl t) =>
          (sharing ++ hidden ++ adiags ++ override_source_has_override fields ++ flat_map external_diags fields,
           Some (mkofield (vf_name first) t args (collect (map (fun f => f_dirs (v_field f)) fields))))
      end
  end.

(* compose/object.rs 181-195 `compose_fields` *)
Definition compose_fields (defs : list dview) : list diag * list ofield :=
  let parts := map compose_field (groups vf_name (flat_map fields_of defs)) in
  (flat_map fst parts, flat_map (fun p => match snd p with Some f => [f] | None => nil end) parts).

Definition dirs_of (defs : list dview) : directives := collect (map (fun v => d_dirs (v_def v)) defs).

(* compose.rs 113-158 `validate_consistent_entityness` *)
Definition is_entity (v : dview) : bool := match d_keys (v_def v) with nil => false | _ => true end.
Definition entityness (defs : list dview) : list diag :=
  if existsb is_entity defs then
    if forallb (fun v => is_entity v || is_v1 (v_graph v)) defs then nil
    else match defs with v :: _ => [Entityness (d_name (v_def v))] | nil => nil end
  else nil.

(* compose/object.rs 320-345 `validate_shareable_object_fields_match` *)
Definition shareable_fields_match (defs : list dview) : list diag :=
  let all := flat_map (fun v => d_fields (v_def v)) defs in
  let hidden := map f_name (filter (fun f => inaccessible (f_dirs f)) all) in
  let expected := filter (fun n => negb (mem n hidden)) (distinct String.eqb (map f_name all)) in
  flat_map (fun v => flat_map (fun n =>
    match field_by_name (v_def v) n with Some _ => nil | None => [MissingShareable (d_name (v_def v)) n] end) expected) defs.

(* compose.rs 56-111 `merge_object_definitions` *)
Definition merge_object (first : dview) (defs : list dview) : list event :=
  let n := d_name (v_def first) in
  if existsb (fun v => negb (is_object (v_def v))) defs then [Diag (KindMismatch n)]
  else
    let (fdiags, fields) := compose_fields defs in
    map Diag (entityness defs) ++ [Item (IObject n (dirs_of defs))] ++
    map Diag (if existsb (fun v => shareable (d_dirs (v_def v))) defs then shareable_fields_match defs else nil) ++
    map Diag fdiags ++ map (fun f => Item (IField n f)) fields.

(* compose.rs 160-184 `merge_union_definitions` *)
Definition merge_union (first : dview) (defs : list dview) : list event :=
  let n := d_name (v_def first) in
  map (fun m => Item (IMember n m)) (flat_map (fun v => d_members (v_def v)) defs) ++ [Item (IUnion n (dirs_of defs))].

(* compose/input_object.rs 3-105 `merge_input_object_definitions` *)
Definition input_intersection (defs : list dview) : list name :=
  match defs with
  | nil => nil
  | first :: rest =>
      filter (fun fn => forallb (fun v => match field_by_name (v_def v) fn with Some _ => true | None => false end) rest)
        (map f_name (d_fields (v_def first)))
  end.

Fixpoint first_field_default (l : list fview) : option value :=
  match l with
  | nil => None
  | f :: r => match f_default (v_field f) with Some v => Some v | None => first_field_default r end
  end.

Definition merge_input_field (n : name) (intersection : list name) (l : list fview) : list diag * list oinput :=
  match l with
  | nil => (nil, nil)
  | first :: _ =>
      let fn := vf_name first in
      if negb (mem fn intersection) then
        ((if existsb (fun f => is_required (f_type (v_field f))) l then [RequiredInputField n fn] else nil), nil)
      else
        match compose_field_types compose_for_input l with
        | None => (nil, nil)
        | Some (inr d) => ([d], nil)
        | Some (inl t) => (nil, [mkoinput fn t (first_field_default l) (collect (map (fun f => f_dirs (v_field f)) l))])
        end
  end.

Definition merge_input_object (first : dview) (defs : list dview) : list event :=
  let n := d_name (v_def first) in
  let parts := map (merge_input_field n (input_intersection defs)) (groups vf_name (flat_map fields_of defs)) in
  map Diag (flat_map fst parts) ++ [Item (IInput n (flat_map snd parts) (dirs_of defs))].

(* compose/interface.rs 3-51 *)
Definition implementers (gs : list subgraph) (i : name) : list name :=
  distinct String.eqb (map snd (filter (fun p => String.eqb i (fst p)) (flat_map g_impls gs))).

Definition defined_field (gs : list subgraph) (n f : name) : bool :=
  existsb (fun g => match definition_by_name g n with
                    | Some d => match field_by_name d f with Some _ => true | None => false end
                    | None => false
                    end) gs.

Definition check_implementers (gs : list subgraph) (i : name) (fields : list name) : list diag :=
  flat_map (fun n => flat_map (fun f => if defined_field gs n f then nil else [NotImplemented i f n]) fields)
    (implementers gs i).

Definition merge_interface (gs : list subgraph) (first : dview) (defs : list dview) : list event :=
  let n := d_name (v_def first) in
  let (fdiags, fields) := compose_fields defs in
  [Item (IInterface n (dirs_of defs))] ++
  map Diag (flat_map (fun l => match l with
                               | f :: _ => if existsb (fun x => shareable (f_dirs (v_field x))) l
                                           then [ShareableInterface n (vf_name f)] else nil
                               | nil => nil
                               end) (groups vf_name (flat_map fields_of defs))) ++
  map Diag fdiags ++ map (fun f => Item (IField n f)) fields ++
  map Diag (check_implementers gs n (map of_name fields)).

(* compose/scalar.rs 3-19 *)
Definition merge_scalar (first : dview) (defs : list dview) : list event :=
  let n := d_name (v_def first) in
  if String.eqb n "join__FieldSet" then nil else [Item (IScalar n (dirs_of defs))].

(* compose/enums.rs 45-76: where an enum is used, in any subgraph *)
Definition all_defs (gs : list subgraph) : list definition := flat_map g_defs gs.
Definition is_output (d : definition) : bool := match d_kind d with KObject | KInterface => true | _ => false end.
Definition used_in_input (gs : list subgraph) (n : name) : bool :=
  existsb (fun d => existsb (fun f =>
    existsb (fun a => String.eqb (base (a_type a)) n) (f_args f) ||
    (kind_eqb (d_kind d) KInputObject && String.eqb (base (f_type f)) n)) (d_fields d)) (all_defs gs).
Definition used_in_output (gs : list subgraph) (n : name) : bool :=
  existsb (fun d => is_output d && existsb (fun f => String.eqb (base (f_type f)) n) (d_fields d)) (all_defs gs).

Definition value_names (d : definition) : list name := map fst (d_values d).
Definition with_sites (defs : list dview) (v : name) : name * directives :=
  (v, collect (flat_map (fun d => match find (fun p => String.eqb v (fst p)) (d_values (v_def d)) with
                                  | Some p => [snd p]
                                  | None => nil
                                  end) defs)).
Definition value_group (c : list (name * directives)) : list (name * directives) :=
  match c with (v, _) :: _ => [(v, collect (map snd c))] | nil => nil end.

(* compose/enums.rs 6-42, 77-191 *)
Definition merge_enum (gs : list subgraph) (first : dview) (defs : list dview) : list event :=
  let n := d_name (v_def first) in
  let dirs := dirs_of defs in
  match used_in_input gs n, used_in_output gs n with
  | true, false =>
      let common := filter (fun v => forallb (fun d => mem v (value_names (v_def d))) defs) (value_names (v_def first)) in
      (match common with nil => [Diag (EmptyEnum n)] | _ => nil end) ++ [Item (IEnum n (map (with_sites defs) common) dirs)]
  | true, true =>
      if existsb (fun d => negb (names_eqb (value_names (v_def first)) (value_names (v_def d)))) defs
      then [Diag (EnumMismatch n); Item (IEnum n nil dirs)]
      else [Item (IEnum n (map (with_sites defs) (value_names (v_def first))) dirs)]
  | false, _ =>
      let all := flat_map (fun d => d_values (v_def d)) defs in
      [Item (IEnum n (flat_map value_group (groups fst all)) dirs)]
  end.

(* compose/entity_interface.rs 3-23 *)
Definition is_entity_interface (defs : list dview) : bool :=
  match find (fun v => is_v2 (v_graph v)) defs with
  | None => false
  | Some v =>
      match d_kind (v_def v) with
      | KObject => interface_object (d_dirs (v_def v))
      | KInterface => is_entity v
      | _ => false
      end
  end.

(* subgraphs/definitions.rs 157-168 `interface_implementers`: what implements
   the interface in any subgraph and is defined in this one *)
Definition implementers_in (gs : list subgraph) (g : subgraph) (i : name) : list definition :=
  flat_map (fun n => match definition_by_name g n with Some d => [d] | None => nil end) (implementers gs i).

Definition first_key (d : definition) : option (list selection) :=
  match d_keys d with nil => None | k :: _ => Some (k_fields k) end.
Definition same_names (l m : list name) : bool := forallb (fun n => mem n m) l && forallb (fun n => mem n l) m.

(* compose/entity_interface.rs 25-196 `merge_entity_interface_definitions` *)
Definition merge_entity_interface (gs : list subgraph) (first : dview) (defs : list dview) : list event :=
  let n := d_name (v_def first) in
  let bad := Diag (EntityInterface n) in
  let interfaces := filter (fun v => kind_eqb (d_kind (v_def v)) KInterface && is_v2 (v_graph v)) defs in
  match interfaces with
  | nil => [bad]
  | idef :: others =>
      let impls := fun v : dview => map d_name (implementers_in gs (v_graph v) n) in
      (match others with
       | nil => nil
       | _ =>
           let all := flat_map impls interfaces in
           flat_map (fun v => (if same_names (impls v) all then nil else [bad]) ++
                              (if interface_object (d_dirs (v_def v)) then [bad] else nil)) interfaces
       end) ++
      [Item (IInterface n (dirs_of defs))] ++
      match first_key (v_def idef) with
      | None => [bad]
      | Some expected =>
          flat_map (fun v =>
            if is_object (v_def v) then
              (if interface_object (d_dirs (v_def v)) then nil else [bad]) ++
              (match first_key (v_def v) with
               | Some k => if selections_eqb k expected then nil else [bad]
               | None => [bad]
               end)
            else nil) defs ++
          let (fdiags, fields) := compose_fields defs in
          map Diag fdiags ++ map (fun f => Item (IField n f)) fields ++
          flat_map (fun d =>
            (match first_key d with
             | Some k => if selections_eqb k expected then nil else [bad]
             | None => [bad]
             end) ++
            flat_map (fun f => match field_by_name d (of_name f) with
                               | Some _ => nil
                               | None => [Item (IField (d_name d) (mkofield (of_name f) (of_type f) (of_args f) plain))]
                               end) fields)
            (implementers_in gs (v_graph idef) n)
      end
  end.

(* subgraphs/top.rs 4-9 `is_root_type` *)
Definition is_name (o : option name) (n : name) : bool := match o with Some m => String.eqb m n | None => false end.
Definition is_root (g : subgraph) (n : name) : bool :=
  is_name (g_query g) n || is_name (g_mutation g) n || is_name (g_subscription g) n.

(* subgraphs.rs 135-157 `iter_definition_groups`: for every name, the
   definitions of the subgraphs, in their order, that are not roots *)
Definition definition_names (gs : list subgraph) : list name :=
  sort str_leb (distinct String.eqb (map d_name (all_defs gs))).
Definition defs_named (gs : list subgraph) (n : name) : list dview :=
  flat_map (fun g =>
    if is_root g n then nil
    else match definition_by_name g n with Some d => [mkdview g d] | None => nil end) gs.

(* compose.rs 28-50, compose/reserved_names.rs 7-28 *)
Definition merge_group (gs : list subgraph) (defs : list dview) : list event :=
  match defs with
  | nil => nil
  | first :: _ =>
      if String.eqb (d_name (v_def first)) "join__Graph" then map (fun _ => Diag ReservedName) defs
      else if is_entity_interface defs then merge_entity_interface gs first defs
      else
        match d_kind (v_def first) with
        | KObject => merge_object first defs
        | KUnion => merge_union first defs
        | KInputObject => merge_input_object first defs
        | KInterface => merge_interface gs first defs
        | KScalar => merge_scalar first defs
        | KEnum => merge_enum gs first defs
        end
  end.

(* compose/roots.rs 5-88 *)
Definition roots_of (gs : list subgraph) (get : subgraph -> option name) : list dview :=
  flat_map (fun g => match get g with
                     | Some n => match definition_by_name g n with Some d => [mkdview g d] | None => nil end
                     | None => nil
                     end) gs.

Definition merge_root (n : name) (defs : list dview) : list event :=
  match defs with
  | nil => nil
  | _ =>
      let (fdiags, fields) := compose_fields defs in
      [Item (IObject n (dirs_of defs))] ++
      (if String.eqb n "Subscription" then
         flat_map (fun v => if shareable (d_dirs (v_def v)) then [Diag SubscriptionShareable] else nil) defs ++
         flat_map (fun f => if shareable (f_dirs (v_field f)) then [Diag SubscriptionShareable] else nil)
           (flat_map fields_of defs)
       else nil) ++
      map Diag fdiags ++ map (fun f => Item (IField n f)) fields
  end.

(* subgraphs.rs 73 *)
Definition builtin_scalars : list name := ["ID"; "String"; "Boolean"; "Int"; "Float"].

(* compose/context.rs 45-47, compose.rs 28-54 `compose_subgraphs` *)
Definition compose_subgraphs (gs : list subgraph) : list event :=
  map (fun n => Item (IScalar n plain)) builtin_scalars ++
  flat_map (fun n => merge_group gs (defs_named gs n)) (definition_names gs) ++
  merge_root "Query" (roots_of gs g_query) ++
  merge_root "Mutation" (roots_of gs g_mutation) ++
  merge_root "Subscription" (roots_of gs g_subscription).

Definition items_of (l : list event) : list item := flat_map (fun e => match e with Item i => [i] | Diag _ => nil end) l.
Definition diags_of (l : list event) : list diag := flat_map (fun e => match e with Diag d => [d] | Item _ => nil end) l.

(* The schema that is emitted.  A definition is found by its name: what was
   inserted last (`definitions_by_name`, context.rs 74-76 and others).  One that
   was inserted before keeps no field in the code. *)
Inductive sdef :=
| DScalar
| DEnum (values : list (name * directives))
| DInput (oneof : bool) (fields : list oinput)
| DObject (fields : list ofield) (implements : list name)
| DInterface (fields : list ofield) (implements : list name)
| DUnion (members : list name).

Record schema := mkschema {
  s_defs : list (name * (sdef * directives)); s_query : bool; s_mutation : bool; s_subscription : bool }.

Definition item_name (i : item) : option name :=
  match i with
  | IScalar n _ | IEnum n _ _ | IInput n _ _ | IObject n _ | IInterface n _ | IUnion n _ => Some n
  | IMember _ _ | IField _ _ => None
  end.
Definition inserted (items : list item) (n : name) : option item :=
  find (fun i => is_name (item_name i) n) (rev items).

(* emit_federated_graph.rs 49-50, 213-266 `emit_fields` *)
Definition fields_named (items : list item) (n : name) : list ofield :=
  sort (fun x y => str_leb (of_name x) (of_name y))
    (flat_map (fun i => match i with IField p f => if String.eqb p n then [f] else nil | _ => nil end) items).
(* emit_federated_graph.rs 268-285 `emit_union_members_after_objects` *)
Definition members_named (items : list item) (n : name) : list name :=
  distinct String.eqb
    (flat_map (fun i => match i with IMember u m => if String.eqb u n then [m] else nil | _ => nil end) items).
Definition is_interface_item (i : option item) : bool := match i with Some (IInterface _ _) => true | _ => false end.
Definition is_object_item (i : option item) : bool := match i with Some (IObject _ _) => true | _ => false end.

(* emit_federated_graph.rs 166-211 `emit_interface_after_directives` *)
Definition implements_named (gs : list subgraph) (items : list item) (n : name) : list name :=
  filter (fun i => is_interface_item (inserted items i))
    (distinct String.eqb (map fst (filter (fun p => String.eqb n (snd p)) (flat_map g_impls gs)))).

Definition emit_def (gs : list subgraph) (items : list item) (i : item) : list (name * (sdef * directives)) :=
  match i with
  | IScalar n d => [(n, (DScalar, d))]
  | IEnum n vs d => [(n, (DEnum vs, d))]
  | IInput n fs d => [(n, (DInput (one_of d) fs, d))]
  | IObject n d => [(n, (DObject (fields_named items n) (implements_named gs items n), d))]
  | IInterface n d => [(n, (DInterface (fields_named items n) (implements_named gs items n), d))]
  | IUnion n d => [(n, (DUnion (filter (fun m => is_object_item (inserted items m)) (members_named items n)), d))]
  | IMember _ _ | IField _ _ => nil
  end.

(* field_types_map.rs 15-31: the type of a field that no definition has *)
Definition known (items : list item) (t : ftype) : bool :=
  match inserted items (base t) with Some _ => true | None => false end.
Definition entity_item (i : option item) : bool := is_object_item i || is_interface_item i.

(* Whether emission ends, where it would panic otherwise:
   field_types_map.rs 19-24 (every type), emit_federated_graph.rs 215-218 (the
   parent of a field), 272-281 (unions and their members) and 167-208
   (interfaces and implementers; `unreachable!`). *)
Definition emits (gs : list subgraph) (items : list item) : bool :=
  forallb (fun i =>
    match i with
    | IInput _ fs _ => forallb (fun x => known items (oi_type x)) fs
    | IField p f =>
        known items (of_type f) && forallb (fun x => known items (oi_type x)) (of_args f) &&
        entity_item (inserted items p)
    | IMember u m =>
        match inserted items u, inserted items m with
        | Some (IUnion _ _), None => false
        | None, _ => false
        | _, _ => true
        end
    | _ => true
    end) items &&
  forallb (fun p =>
    match inserted items (fst p), inserted items (snd p) with
    | Some (IInterface _ _), x => entity_item x
    | None, _ => false
    | Some _, _ => true
    end) (flat_map g_impls gs).

Inductive outcome := Rejected (ds : list diag) | Panicked | Composed (s : schema).

(* lib.rs 31-72 `compose`, validate.rs 22-30 `validate_root_nonempty` *)
Definition has_root (g : subgraph) : bool :=
  match g_query g, g_mutation g, g_subscription g with None, None, None => false | _, _, _ => true end.
Definition nonempty {A} (l : list A) : bool := match l with nil => false | _ => true end.

Definition compose (gs : list subgraph) : outcome :=
  match gs with
  | nil => Rejected [NoSubgraphs]
  | _ =>
      if negb (existsb has_root gs) then Rejected [NoRoots]
      else
        let events := compose_subgraphs gs in
        match diags_of events with
        | d :: ds => Rejected (d :: ds)
        | nil =>
            let items := items_of events in
            if emits gs items then
              Composed (mkschema (flat_map (emit_def gs items) items)
                          (nonempty (roots_of gs g_query)) (nonempty (roots_of gs g_mutation))
                          (nonempty (roots_of gs g_subscription)))
            else Panicked
        end
  end.

(* What a name stands for in the schema: the definition inserted last. *)
Definition lookup (s : schema) (n : name) : option sdef :=
  option_map (fun p => fst (snd p)) (find (fun p => String.eqb n (fst p)) (rev (s_defs s))).
Definition lookup_directives (s : schema) (n : name) : option directives :=
  option_map (fun p => snd (snd p)) (find (fun p => String.eqb n (fst p)) (rev (s_defs s))).
