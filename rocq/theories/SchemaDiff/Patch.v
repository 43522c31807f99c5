(* Model of the application of a list of changes to a schema:
   /repo/crates/graphql-schema-diff/src/patch.rs, patch/paths.rs,
   patch/schema_definitions.rs, patch/type_definitions.rs and
   patch/directives.rs.

   The code writes the text of the patched schema.  The model gives the
   document that this text stands for, or `None` when the text cannot be parsed
   because two arguments run together (see `run_together`).  Directives and
   descriptions are left out, as in `Ast.v`.  An empty pair of braces stands
   for a definition without fields.  `debug_assert!` is left out: this is the
   release build. *)
From Coq Require Import String Ascii List Bool Arith.
Import ListNotations.
From Verif.SchemaDiff Require Import Ast Search Diff.
Local Open Scope string_scope.
Local Open Scope list_scope.

(** The texts of the changes. *)

(* The last argument of a field. *)
Definition last_arg (d : doc) (n f : string) : option string :=
  last (map (fun e => Some (snd (fst e))) (filter (fun e => key2_eqb (fst (fst e)) (n, f)) (args_of d))) None.

(* A change with the text of its span (lib.rs 46-92 `resolve_spans`).  The span
   of an argument reaches to the next token: the text ends in a blank or a
   comma, unless the argument is the last of its field, which is followed by the
   closing parenthesis at once (tests/patch/add_argument.graphql; the span of
   `currency` in tests/diff/field_arguments_basic.snapshot.json). *)
Definition rchange := (change * bool)%type.

Definition separated (b : doc) (c : change) : bool :=
  match c_path c with
  | PArg n f q => negb (match last_arg b n f with Some q' => String.eqb q q' | None => false end)
  | _ => true
  end.

Definition resolve_spans (b : doc) (l : list change) : list rchange := map (fun c => (c, separated b c)) l.

(** patch/paths.rs *)

Definition seg (r : rchange) : string * string * string := segments (c_path (fst r)).
Definition seg1 (r : rchange) : string := fst (fst (seg r)).
Definition seg2 (r : rchange) : string := snd (fst (seg r)).
Definition seg3 (r : rchange) : string := snd (seg r).
Definition rkind (r : rchange) : ckind := c_kind (fst r).
Definition rtext (r : rchange) : payload := c_text (fst r).

Definition seg_leb (x y : rchange) : bool := match cmp3 (seg x) (seg y) with Gt => false | _ => true end.

(* paths.rs 20-37: sorted by the segments and then by the position in the list,
   which is a stable sort *)
Definition new_paths (l : list rchange) : list rchange := sort seg_leb l.

Definition is_empty (s : string) : bool := match s with EmptyString => true | _ => false end.

(* paths.rs 39-44 *)
Definition iter_top_level (ps : list rchange) : list rchange :=
  filter (fun r => is_empty (seg2 r) && is_empty (seg3 r)) ps.

(* paths.rs 46-51 *)
Definition iter_second_level (ps : list rchange) (parent : string) : list rchange :=
  filter (fun r => String.eqb (seg1 r) parent && negb (is_empty (seg2 r))) ps.

Definition is_lt (c : comparison) : bool := match c with Lt => true | _ => false end.
Definition is_eq (c : comparison) : bool := match c with Eq => true | _ => false end.

(* paths.rs 53-59 *)
Definition iter_exact (ps : list rchange) (p : string * string * string) : list rchange :=
  take_while (fun r => is_eq (cmp3 (seg r) p))
    (skipn (partition_point (fun r => is_lt (cmp3 (seg r) p)) ps) ps).

(* str::trim_start_matches('&') *)
Fixpoint trim (s : string) : string :=
  match s with
  | String "&" s' => trim s'
  | _ => s
  end.

(* The kinds the code compares for equality. *)
Definition ckind_eqb (a b : ckind) : bool := Nat.eqb (ckind_rank a) (ckind_rank b).

(* paths.rs 65-73 *)
Definition added_interface_impls (ps : list rchange) (n : string) : list string :=
  map (fun r => trim (seg2 r))
    (filter (fun r => ckind_eqb (rkind r) AddInterfaceImplementation)
      (take_while (fun r => String.eqb (seg1 r) n)
        (skipn (partition_point (fun r => is_lt (String.compare (seg1 r) n)) ps) ps))).

(* paths.rs 75-83: the search compares names without the `&` that they are
   sorted with *)
Definition impl_cmp (n i : string) (r : rchange) : comparison :=
  match String.compare (seg1 r) n with
  | Eq => match String.compare (trim (seg2 r)) i with
          | Eq => Nat.compare (ckind_rank (rkind r)) (ckind_rank RemoveInterfaceImplementation)
          | c => c
          end
  | c => c
  end.

Definition is_interface_impl_removed (ps : list rchange) (n i : string) : bool :=
  match bsearch (impl_cmp n i) ps with inl _ => true | inr _ => false end.

(** patch/schema_definitions.rs *)

(* The last change of the kind (24-38). *)
Definition new_root (k : ckind) (l : list rchange) : option (option string) :=
  fold_left (fun acc r => if ckind_eqb (rkind r) k
                          then match rtext r with NameText n => Some n | _ => Some None end
                          else acc) l None.

(* 64-76: an empty replacement removes the type *)
Definition pick_root (new : option (option string)) (old : option string) : option string :=
  match new with Some n => n | None => old end.

Definition patch_schema_definition (ps : list rchange) (ext : bool) (r : roots) : list def :=
  let l := iter_exact ps (if ext then ":schema[0]" else ":schema", "", "") in
  if existsb (fun c => ckind_eqb (rkind c) (if ext then RemoveSchemaExtension else RemoveSchemaDefinition)) l
  then nil
  else
    let r' := mkroots (pick_root (new_root ChangeQueryType l) (r_query r))
                      (pick_root (new_root ChangeMutationType l) (r_mutation r))
                      (pick_root (new_root ChangeSubscriptionType l) (r_subscription r)) in
    [if ext then DSchemaExt r' else DSchema r'].

(** patch/type_definitions.rs *)

Definition str_leb (x y : string) : bool := match String.compare x y with Gt => false | _ => true end.

(* Vec::dedup *)
Fixpoint dedup (l : list string) : list string :=
  match l with
  | nil => nil
  | x :: r => match r with
              | nil => [x]
              | y :: _ => if String.eqb x y then dedup r else x :: dedup r
              end
  end.

(* 50-60 *)
Definition patch_implements (ps : list rchange) (n : string) (impls : list string) : list string :=
  dedup (sort str_leb
    (filter (fun i => negb (is_interface_impl_removed ps n i)) (impls ++ added_interface_impls ps n))).

(* The names in the second level of the changes of a kind. *)
Definition names_of (k : ckind) (l : list rchange) : list string :=
  map seg2 (filter (fun r => ckind_eqb (rkind r) k) l).

(* 115-121, 188-195, 298-303, 341-346: sorted, then searched *)
Definition searched (l : list string) (n : string) : bool :=
  match bsearch (fun x => String.compare x n) (sort str_leb l) with inl _ => true | inr _ => false end.

(* 99-102, 158-161 *)
Definition changed_types (l : list rchange) : list (string * payload) :=
  map (fun r => (seg2 r, rtext r)) (filter (fun r => ckind_eqb (rkind r) ChangeFieldType) l).

(* 127-131, 252-256: searched without being sorted *)
Definition patch_type (l : list (string * payload)) (f : string) (t : ty) : ty :=
  match bsearch (fun e => String.compare (fst e) f) l with
  | inl i => match nth_error l i with Some (_, TypeText u) => u | _ => t end
  | inr _ => t
  end.

(* 84-140: the default values of the fields are not written *)
Definition patch_input_object (ps : list rchange) (n : string) (fs : list input) : list input :=
  let l := iter_second_level ps n in
  flat_map (fun r => if ckind_eqb (rkind r) AddField
                     then match rtext r with InputText x => [x] | _ => nil end else nil) l ++
  map (fun x => mkinput (i_name x) (patch_type (changed_types l) (i_name x) (i_type x)) None)
    (filter (fun x => negb (searched (names_of RemoveField l) (i_name x))) fs).

Definition word_char (c : ascii) : bool :=
  let n := nat_of_ascii c in
  (Nat.leb 48 n && Nat.leb n 57) || (Nat.leb 65 n && Nat.leb n 90) || Nat.eqb n 95 || (Nat.leb 97 n && Nat.leb n 122).

Fixpoint ends_in_word_text (s : string) : bool :=
  match s with
  | EmptyString => false
  | String c EmptyString => word_char c
  | String _ s' => ends_in_word_text s'
  end.

(* The text of the argument ends in a character of a name or a number. *)
Definition ends_in_word (x : input) : bool :=
  match i_default x with
  | Some v => ends_in_word_text v
  | None => match i_type x with TName _ => true | _ => false end
  end.

(* 222-224: nothing is written between the texts of added arguments and what
   follows them, so that `new: Int` before `old: Int` is `new: Intold: Int`.
   (A number before a name is taken to be an error, too.) *)
Fixpoint run_together (l : list (input * bool)) : bool :=
  match l with
  | nil => false
  | (x, sep) :: r =>
      match r with
      | nil => false
      | _ => (negb sep && ends_in_word x) || run_together r
      end
  end.

(* 213-249 *)
Definition patch_args (l : list rchange) (f : string) (args : list input) : option (list input) :=
  let kept := filter (fun x => negb (existsb (fun r =>
                  ckind_eqb (rkind r) RemoveFieldArgument && String.eqb (seg2 r) f && String.eqb (seg3 r) (i_name x)) l))
                args in
  let added := flat_map (fun r =>
                  if ckind_eqb (rkind r) AddFieldArgument && String.eqb (seg2 r) f
                  then match rtext r with InputText x => [(x, snd r)] | _ => nil end
                  else nil) l in
  let all := added ++ map (fun x => (x, true)) kept in
  if run_together all then None else Some (map fst all).

Fixpoint traverse {A B} (f : A -> option B) (l : list A) : option (list B) :=
  match l with
  | nil => Some nil
  | x :: r => match f x, traverse f r with
              | Some y, Some ys => Some (y :: ys)
              | _, _ => None
              end
  end.

(* 192-262 *)
Definition patch_field (l : list rchange) (x : field) : option field :=
  match patch_args l (f_name x) (f_args x) with
  | Some args => Some (mkfield (f_name x) args (patch_type (changed_types l) (f_name x) (f_type x)))
  | None => None
  end.

(* 142-267 *)
Definition patch_fields (ps : list rchange) (n : string) (fs : list field) : option (list field) :=
  let l := iter_second_level ps n in
  let added := flat_map (fun r => if ckind_eqb (rkind r) AddField
                                  then match rtext r with FieldText x => [x] | _ => nil end else nil) l in
  match traverse (patch_field l)
          (filter (fun x => negb (searched (names_of RemoveField l) (f_name x))) fs) with
  | Some kept => Some (added ++ kept)
  | None => None
  end.

(* 269-314 *)
Definition patch_enum_values (ps : list rchange) (n : string) (vs : list string) : list string :=
  let l := iter_second_level ps n in
  flat_map (fun r => if ckind_eqb (rkind r) AddEnumValue
                     then match rtext r with ValueText x => [x] | _ => nil end else nil) l ++
  filter (fun v => negb (searched (names_of RemoveEnumValue l) v)) vs.

(* 316-358 *)
Definition patch_union (ps : list rchange) (n : string) (vs : list string) : list string :=
  let l := iter_second_level ps n in
  filter (fun v => negb (searched (names_of RemoveUnionMember l) v)) vs ++ names_of AddUnionMember l.

(* 16-22 *)
Definition removes_type (k : ckind) : bool :=
  match k with
  | RemoveObjectType | RemoveUnion | RemoveEnum | RemoveScalar | RemoveInterface | RemoveInputObject => true
  | _ => false
  end.

(* 9-82 *)
Definition patch_tdef (ps : list rchange) (t : tdef) : option (list tdef) :=
  if existsb (fun r => removes_type (rkind r)) (iter_exact ps (tdef_name t, "", ""))
  then Some nil
  else
    match t with
    | TScalar n => Some [TScalar n]
    | TObject n impls fs =>
        match patch_fields ps n fs with
        | Some fs' => Some [TObject n (patch_implements ps n impls) fs']
        | None => None
        end
    | TInterface n impls fs =>
        match patch_fields ps n fs with
        | Some fs' => Some [TInterface n (patch_implements ps n impls) fs']
        | None => None
        end
    | TUnion n vs => Some [TUnion n (patch_union ps n vs)]
    | TEnum n vs => Some [TEnum n (patch_enum_values ps n vs)]
    | TInput n fs => Some [TInput n (patch_input_object ps n fs)]
    end.

(** patch/directives.rs 7-26 *)
Definition patch_directive (ps : list rchange) (n : string) : list def :=
  if existsb (fun r => ckind_eqb (rkind r) RemoveDirectiveDefinition) (iter_exact ps (n, "", ""))
  then nil else [DDirective n].

(** patch.rs *)

(* 52-72 *)
Definition patch_def (ps : list rchange) (x : def) : option (list def) :=
  match x with
  | DSchema r => Some (patch_schema_definition ps false r)
  | DSchemaExt r => Some (patch_schema_definition ps true r)
  | DType t => option_map (map DType) (patch_tdef ps t)
  | DTypeExt t => option_map (map DTypeExt) (patch_tdef ps t)
  | DDirective n => Some (patch_directive ps n)
  end.

(* 27-50 *)
Definition adds_definition (k : ckind) : bool :=
  match k with
  | AddSchemaDefinition | AddObjectType | AddUnion | AddEnum | AddScalar | AddInterface
  | AddDirectiveDefinition | AddInputObject | AddSchemaExtension => true
  | _ => false
  end.

Definition added_defs (ps : list rchange) : list def :=
  flat_map (fun r => if adds_definition (rkind r) then match rtext r with DefText x => [x] | _ => nil end else nil)
    (iter_top_level ps).

(* 13-75.  That the source cannot be parsed is left out. *)
Definition patch (a : doc) (l : list rchange) : option doc :=
  let ps := new_paths l in
  match concat_map (patch_def ps) a with
  | Some ds => Some (added_defs ps ++ ds)
  | None => None
  end.

(** An example. *)
Example patch_example :
  let a := [DSchema (mkroots (Some "Query") (Some "Mutation") None);
            DType (TObject "Syrup" ["Product"]
                     [mkfield "price" [mkinput "details" (TName "Args") None; mkinput "currency" (TNonNull (TName "String")) None]
                        (TNonNull (TName "Float"));
                      mkfield "id" nil (TName "ID")]);
            DType (TInput "Args" [mkinput "quantity" (TName "Int") None]);
            DType (TEnum "Grade" ["GOLDEN"; "DARK"])] in
  let b := [DSchema (mkroots (Some "Root") None None);
            DType (TEnum "Grade" ["GOLDEN"]);
            DType (TObject "Syrup" ["Node"]
                     [mkfield "price" [mkinput "date" (TName "Date") None; mkinput "details" (TName "Args") None] (TName "Float");
                      mkfield "name" nil (TName "String")]);
            DType (TInterface "Args" nil [mkfield "quantity" nil (TName "String")])] in
  match diff a b with
  | Some l => patch a (resolve_spans b l)
  | None => None
  end =
  Some [DType (TInterface "Args" nil [mkfield "quantity" nil (TName "String")]);
        DSchema (mkroots (Some "Root") None None);
        DType (TObject "Syrup" ["Node"]
                 [mkfield "name" nil (TName "String");
                  mkfield "price" [mkinput "date" (TName "Date") None; mkinput "details" (TName "Args") None] (TName "Float")]);
        DType (TEnum "Grade" ["GOLDEN"])].
Proof. vm_compute. reflexivity. Qed.
