(* Model of the comparison of two schemas:
   /repo/crates/graphql-schema-diff/src/{lib,traverse_schemas,state,change}.rs.

   A change carries a path, a kind and the span of the text that the change
   introduces.  The span is modelled by what its text parses to, see `payload`;
   `lib.rs` 46-92 (`resolve_spans`) picks the schema the span points into.  The
   text of a path is modelled by its three segments: the names of GraphQL
   contain no `.`, so the text determines them (`path/display.rs`,
   `patch/paths.rs` 129-136). *)
From Coq Require Import String List Bool Arith.
Import ListNotations.
From Verif.SchemaDiff Require Import Ast Search.
Local Open Scope string_scope.
Local Open Scope list_scope.

(* change.rs 37-77; the order of the variants is the order of the kinds. *)
Inductive ckind :=
| ChangeQueryType | ChangeMutationType | ChangeSubscriptionType
| RemoveObjectType | AddObjectType
| AddInterfaceImplementation | RemoveInterfaceImplementation
| ChangeFieldType | RemoveField | AddField
| AddUnion | RemoveUnion | AddUnionMember | RemoveUnionMember
| AddEnum | RemoveEnum | AddEnumValue | RemoveEnumValue
| AddScalar | RemoveScalar | AddInterface | RemoveInterface
| AddDirectiveDefinition | RemoveDirectiveDefinition
| AddSchemaDefinition | RemoveSchemaDefinition
| AddSchemaExtension | RemoveSchemaExtension
| AddInputObject | RemoveInputObject
| AddFieldArgument | RemoveFieldArgument
| AddFieldArgumentDefault | RemoveFieldArgumentDefault
| ChangeFieldArgumentDefault | ChangeFieldArgumentType.

Definition ckind_rank (k : ckind) : nat :=
  match k with
  | ChangeQueryType => 0 | ChangeMutationType => 1 | ChangeSubscriptionType => 2
  | RemoveObjectType => 3 | AddObjectType => 4
  | AddInterfaceImplementation => 5 | RemoveInterfaceImplementation => 6
  | ChangeFieldType => 7 | RemoveField => 8 | AddField => 9
  | AddUnion => 10 | RemoveUnion => 11 | AddUnionMember => 12 | RemoveUnionMember => 13
  | AddEnum => 14 | RemoveEnum => 15 | AddEnumValue => 16 | RemoveEnumValue => 17
  | AddScalar => 18 | RemoveScalar => 19 | AddInterface => 20 | RemoveInterface => 21
  | AddDirectiveDefinition => 22 | RemoveDirectiveDefinition => 23
  | AddSchemaDefinition => 24 | RemoveSchemaDefinition => 25
  | AddSchemaExtension => 26 | RemoveSchemaExtension => 27
  | AddInputObject => 28 | RemoveInputObject => 29
  | AddFieldArgument => 30 | RemoveFieldArgument => 31
  | AddFieldArgumentDefault => 32 | RemoveFieldArgumentDefault => 33
  | ChangeFieldArgumentDefault => 34 | ChangeFieldArgumentType => 35
  end.

(* The paths the comparison produces (path.rs 37-59): the definition of a type
   or a directive has the name alone, without the `@` of
   `Path::DirectiveDefinition` (state.rs 285-289, 303-307). *)
Inductive path :=
| PSchema                               (* ":schema" *)
| PSchemaExt                            (* ":schema[0]" *)
| PType (n : string)
| PField (n f : string)                 (* also the values of enums and the members of unions *)
| PImpl (n i : string)                  (* "n.&i" *)
| PArg (n f a : string).

(* patch/paths.rs 129-136 *)
Definition segments (p : path) : string * string * string :=
  match p with
  | PSchema => (":schema", "", "")
  | PSchemaExt => (":schema[0]", "", "")
  | PType n => (n, "", "")
  | PField n f => (n, f, "")
  | PImpl n i => (n, String.append "&" i, "")
  | PArg n f a => (n, f, a)
  end.

(* What the text of the span of a change parses to (change.rs 15-27). *)
Inductive payload :=
| NoText
| NameText (n : option string)          (* the new root type; an absent one has an empty span *)
| DefText (d : def)
| FieldText (x : field)
| InputText (x : input)
| ValueText (v : string)
| TypeText (t : ty)
| DefaultText (v : string).

Record change := mkchange { c_path : path; c_kind : ckind; c_text : payload }.

(** The maps of the state.  A `HashMap` is a list of entries without double
    keys; the order of the entries does not matter, because the changes are
    sorted at the end. *)
Section Map.
  Context {K V : Type} (eqb : K -> K -> bool).

  Definition entry := (K * (option V * option V))%type.

  (* traverse_schemas.rs 242-244 `insert_source`: whatever the entry was before
     is replaced *)
  Fixpoint insert_source (k : K) (v : V) (m : list entry) : list entry :=
    match m with
    | nil => [(k, (Some v, None))]
    | (k', e) :: r => if eqb k' k then (k', (Some v, None)) :: r else (k', e) :: insert_source k v r
    end.

  (* traverse_schemas.rs 246-248 `merge_target` *)
  Fixpoint merge_target (k : K) (v : V) (m : list entry) : list entry :=
    match m with
    | nil => [(k, (None, Some v))]
    | (k', e) :: r => if eqb k' k then (k', (fst e, Some v)) :: r else (k', e) :: merge_target k v r
    end.

  Fixpoint lookup (k : K) (m : list entry) : option (option V * option V) :=
    match m with
    | nil => None
    | (k', e) :: r => if eqb k' k then Some e else lookup k r
    end.

  (* All entries of the source are inserted, then all entries of the target
     are merged (traverse_schemas.rs 6-23).  The code fills the four maps in one
     traversal; here each map has its own. *)
  Definition fill (src target : list (K * V)) : list entry :=
    fold_left (fun m kv => merge_target (fst kv) (snd kv) m) target
      (fold_left (fun m kv => insert_source (fst kv) (snd kv) m) src nil).
End Map.

Definition key2 := (string * string)%type.
Definition key3 := (string * string * string)%type.

Definition key2_eqb (a b : key2) : bool := String.eqb (fst a) (fst b) && String.eqb (snd a) (snd b).
Definition key3_eqb (a b : key3) : bool := key2_eqb (fst a) (fst b) && String.eqb (snd a) (snd b).

(* What a document puts in `types_map` (traverse_schemas.rs 25-120, 122-215).
   Directives share the map with the types. *)
Definition types_of (d : doc) : list (string * def) :=
  flat_map (fun x =>
    match x with
    | DSchema _ | DSchemaExt _ => nil
    | DDirective n => [(n, x)]
    | DType t | DTypeExt t => [(tdef_name t, x)]
    end) d.

Definition tdefs (d : doc) : list tdef :=
  flat_map (fun x => match x with DType t | DTypeExt t => [t] | _ => nil end) d.

(* What is known of a field, value or member: its type unless it is a value or
   member, and the text of the whole. *)
Definition fentry := (option ty * payload)%type.

Definition tdef_fields (t : tdef) : list (key2 * fentry) :=
  match t with
  | TScalar _ => nil
  | TObject n _ fs | TInterface n _ fs => map (fun x => ((n, f_name x), (Some (f_type x), FieldText x))) fs
  | TUnion n vs | TEnum n vs => map (fun v => ((n, v), (None, ValueText v))) vs
  | TInput n fs => map (fun x => ((n, i_name x), (Some (i_type x), InputText x))) fs
  end.

Definition fields_of (d : doc) : list (key2 * fentry) := flat_map tdef_fields (tdefs d).

Definition tdef_impls (t : tdef) : list (string * list string) :=
  match t with
  | TObject n impls _ | TInterface n impls _ => [(n, impls)]
  | _ => nil
  end.

Definition impls_of (d : doc) : list (string * list string) := flat_map tdef_impls (tdefs d).

Definition tdef_args (t : tdef) : list (key3 * input) :=
  match t with
  | TObject n _ fs | TInterface n _ fs =>
      flat_map (fun x => map (fun a => (((n, f_name x), i_name a), a)) (f_args x)) fs
  | _ => nil
  end.

Definition args_of (d : doc) : list (key3 * input) := flat_map tdef_args (tdefs d).

Definition types_map (a b : doc) := fill String.eqb (types_of a) (types_of b).
Definition fields_map (a b : doc) := fill key2_eqb (fields_of a) (fields_of b).
Definition impls_map (a b : doc) := fill String.eqb (impls_of a) (impls_of b).
Definition args_map (a b : doc) := fill key3_eqb (args_of a) (args_of b).

(** state.rs: the changes.  `None` is a panic. *)

(* state.rs 31-50 `DefinitionKind::new` *)
Definition def_kind (x : def) : option kind :=
  match x with
  | DSchema _ | DSchemaExt _ => None
  | DType t | DTypeExt t => Some (tdef_kind t)
  | DDirective _ => Some KDirective
  end.

Definition same_kind (a b : def) : bool :=
  match def_kind a, def_kind b with
  | Some x, Some y => kind_eqb x y
  | None, None => true
  | _, _ => false
  end.

Definition name_eqb (a b : option string) : bool :=
  match a, b with
  | Some x, Some y => String.eqb x y
  | None, None => true
  | _, _ => false
  end.

(* The definition that is kept: the last one (traverse_schemas.rs 31-33,
   134-136). *)
Definition last_schema (d : doc) : option roots := last (map Some (schema_defs d)) None.

(* state.rs 311-364 *)
Definition schema_changes (a b : option roots) : list change :=
  match a, b with
  | None, None => nil
  | Some x, Some y =>
      (if name_eqb (r_query x) (r_query y) then nil
       else [mkchange PSchema ChangeQueryType (NameText (r_query y))]) ++
      (if name_eqb (r_mutation x) (r_mutation y) then nil
       else [mkchange PSchema ChangeMutationType (NameText (r_mutation y))]) ++
      (if name_eqb (r_subscription x) (r_subscription y) then nil
       else [mkchange PSchema ChangeSubscriptionType (NameText (r_subscription y))])
  | None, Some y => [mkchange PSchema AddSchemaDefinition (DefText (DSchema y))]
  | Some _, None => [mkchange PSchema RemoveSchemaDefinition NoText]
  end.

(* traverse_schemas.rs 28-30, 125-133 pair the extensions by position;
   state.rs 84-104: only the surplus ones are changes, and all have the path
   `:schema[0]`. *)
Definition ext_changes (a b : list roots) : list change :=
  map (fun _ => mkchange PSchemaExt RemoveSchemaExtension NoText) (skipn (length b) a) ++
  map (fun y => mkchange PSchemaExt AddSchemaExtension (DefText (DSchemaExt y))) (skipn (length a) b).

Definition mem (x : string) (l : list string) : bool := existsb (String.eqb x) l.

(* state.rs 106-133 *)
Definition impl_changes (e : string * (option (list string) * option (list string))) : list change :=
  match e with
  | (n, (Some src, Some target)) =>
      flat_map (fun i => if mem i target then nil
                         else [mkchange (PImpl n i) RemoveInterfaceImplementation NoText]) src ++
      flat_map (fun i => if mem i src then nil
                         else [mkchange (PImpl n i) AddInterfaceImplementation NoText]) target
  | _ => nil
  end.

Definition add_kind (k : kind) : ckind :=
  match k with
  | KDirective => AddDirectiveDefinition
  | KEnum => AddEnum
  | KInput => AddInputObject
  | KInterface => AddInterface
  | KObject => AddObjectType
  | KScalar => AddScalar
  | KUnion => AddUnion
  end.

Definition remove_kind (k : kind) : ckind :=
  match k with
  | KDirective => RemoveDirectiveDefinition
  | KEnum => RemoveEnum
  | KInput => RemoveInputObject
  | KInterface => RemoveInterface
  | KObject => RemoveObjectType
  | KScalar => RemoveScalar
  | KUnion => RemoveUnion
  end.

(* state.rs 270-290 `push_added_type` *)
Definition added_type (n : string) (x : def) : list change :=
  match def_kind x with
  | Some k => [mkchange (PType n) (add_kind k) (DefText x)]
  | None => nil
  end.

(* state.rs 292-308 `push_removed_type`; only called on definitions of types
   and directives *)
Definition removed_type (n : string) (x : def) : list change :=
  match def_kind x with
  | Some k => [mkchange (PType n) (remove_kind k) NoText]
  | None => nil
  end.

(* state.rs 252-268 *)
Definition type_changes (e : string * (option def * option def)) : list change :=
  match e with
  | (n, (None, Some y)) => added_type n y
  | (n, (Some x, None)) => removed_type n x
  | (n, (Some x, Some y)) => if same_kind x y then nil else removed_type n x ++ added_type n y
  | (_, (None, None)) => nil
  end.

Definition oty_eqb (a b : option ty) : bool :=
  match a, b with
  | Some x, Some y => ty_eqb x y
  | None, None => true
  | _, _ => false
  end.

(* state.rs 192-250 *)
Definition field_changes (types : list (entry (K := string) (V := def)))
    (e : key2 * (option fentry * option fentry)) : option (list change) :=
  let '((n, f), (src, target)) := e in
  match lookup String.eqb n types with
  | Some (Some x, Some y) =>
      if same_kind x y then
        match def_kind x with
        | None => None                                           (* unwrap *)
        | Some KScalar | Some KDirective => None                 (* unreachable!() *)
        | Some k =>
            match src, target with
            | None, None => None                                 (* unreachable!() *)
            | None, Some (_, text) =>
                Some [mkchange (PField n f)
                        (match k with KEnum => AddEnumValue | KUnion => AddUnionMember | _ => AddField end) text]
            | Some _, None =>
                Some [mkchange (PField n f)
                        (match k with KEnum => RemoveEnumValue | KUnion => RemoveUnionMember | _ => RemoveField end)
                        NoText]
            | Some (ta, _), Some (tb, _) =>
                match k with
                | KObject | KInterface | KInput =>
                    if oty_eqb ta tb then Some nil
                    else match tb with
                         | Some t => Some [mkchange (PField n f) ChangeFieldType (TypeText t)]
                         | None => None                          (* unwrap *)
                         end
                | _ => Some nil
                end
            end
        end
      else Some nil
  | Some (Some _, None) | Some (None, Some _) => Some nil
  | Some (None, None) | None => None                             (* unreachable!(), index *)
  end.

(* state.rs 135-190 *)
Definition arg_changes (fields : list (entry (K := key2) (V := fentry)))
    (e : key3 * (option input * option input)) : option (list change) :=
  let '(((n, f), a), (src, target)) := e in
  match lookup key2_eqb (n, f) fields with
  | None => None                                                 (* index *)
  | Some (None, Some _) => Some nil
  | Some fe =>
      let parent_is_gone := match fe with (Some _, None) => true | _ => false end in
      let p := PArg n f a in
      match src, target with
      | None, None => None                                       (* unreachable!() *)
      | None, Some y => Some [mkchange p AddFieldArgument (InputText y)]
      | Some _, None => Some (if parent_is_gone then nil else [mkchange p RemoveFieldArgument NoText])
      | Some x, Some y =>
          Some ((if ty_eqb (i_type x) (i_type y) then nil
                 else [mkchange p ChangeFieldArgumentType (TypeText (i_type y))]) ++
                match i_default x, i_default y with
                | None, Some v => [mkchange p AddFieldArgumentDefault (DefaultText v)]
                | Some _, None => [mkchange p RemoveFieldArgumentDefault NoText]
                | Some u, Some v =>
                    if String.eqb u v then nil else [mkchange p ChangeFieldArgumentDefault (DefaultText v)]
                | None, None => nil
                end)
      end
  end.

Fixpoint concat_map {A B} (f : A -> option (list B)) (l : list A) : option (list B) :=
  match l with
  | nil => Some nil
  | x :: r =>
      match f x, concat_map f r with
      | Some u, Some v => Some (u ++ v)
      | _, _ => None
      end
  end.

(* change.rs 4-6: changes are ordered by their path and then by their kind.  The
   texts of two paths are ordered as their segments are: `.` comes before all
   characters of names.  The span, which comes last, is left out: two changes
   with the same path and the same kind stay as they are. *)
Definition cmp3 (a b : string * string * string) : comparison :=
  match String.compare (fst (fst a)) (fst (fst b)) with
  | Eq => match String.compare (snd (fst a)) (snd (fst b)) with
          | Eq => String.compare (snd a) (snd b)
          | c => c
          end
  | c => c
  end.

Definition change_leb (x y : change) : bool :=
  match cmp3 (segments (c_path x)) (segments (c_path y)) with
  | Lt => true
  | Gt => false
  | Eq => Nat.leb (ckind_rank (c_kind x)) (ckind_rank (c_kind y))
  end.

(* lib.rs 20-29 `diff_asts` with state.rs 52-80 `into_changes`.  An absent
   document is an empty one. *)
Definition diff (a b : doc) : option (list change) :=
  match concat_map (field_changes (types_map a b)) (fields_map a b),
        concat_map (arg_changes (fields_map a b)) (args_map a b) with
  | Some fs, Some args =>
      Some (sort change_leb
              (schema_changes (last_schema a) (last_schema b) ++
               ext_changes (schema_exts a) (schema_exts b) ++
               flat_map impl_changes (impls_map a b) ++
               flat_map type_changes (types_map a b) ++
               fs ++ args))
  | _, _ => None
  end.

(** An example: tests/diff/field_arguments_basic.graphql in part. *)
Example diff_example :
  let a := [DType (TObject "Syrup" ["Product"]
                     [mkfield "price" [mkinput "details" (TName "Args") None; mkinput "currency" (TNonNull (TName "String")) None]
                        (TNonNull (TName "Float"));
                      mkfield "id" nil (TName "ID")]);
            DType (TInput "Args" [mkinput "quantity" (TName "Int") None]);
            DType (TEnum "Grade" ["GOLDEN"; "DARK"])] in
  let b := [DType (TEnum "Grade" ["GOLDEN"]);
            DType (TObject "Syrup" nil
                     [mkfield "price" [mkinput "details" (TName "Args") (Some "{}")] (TName "Float")]);
            DType (TInterface "Args" nil [mkfield "quantity" nil (TName "String")])] in
  option_map (map (fun c => (c_path c, c_kind c))) (diff a b) =
  Some [(PType "Args", AddInterface); (PType "Args", RemoveInputObject);
        (PField "Grade" "DARK", RemoveEnumValue);
        (PImpl "Syrup" "Product", RemoveInterfaceImplementation);
        (PField "Syrup" "id", RemoveField);
        (PField "Syrup" "price", ChangeFieldType);
        (PArg "Syrup" "price" "currency", RemoveFieldArgument);
        (PArg "Syrup" "price" "details", AddFieldArgumentDefault)].
Proof. vm_compute. reflexivity. Qed.
