(** What the answer to an introspection query must be (GraphQL specification, section 4),
    stated on the schema as a client sees it: named definitions without anything inaccessible. *)
From Coq Require Import String List Bool.
From Verif Require Import Wrapping.Model Wrapping.Spec Wrapping.Proofs Introspection.Model.
Import ListNotations.
Local Open Scope string_scope.
Local Open Scope list_scope.

(** ** The schema of a client *)
Inductive ctype := CNamed (name : string) | CList (t : ctype) | CNonNull (t : ctype).
(** [Some r]: deprecated, for the reason [r] if there is one. *)
Definition deprecation := option (option string).
Record cinput := { ci_name : string; ci_desc : option string; ci_ty : ctype; ci_default : option string; ci_dep : deprecation }.
Record cfield := { cf_name : string; cf_desc : option string; cf_args : list cinput; cf_ty : ctype; cf_dep : deprecation }.
Record cvalue := { cv_name : string; cv_desc : option string; cv_dep : deprecation }.
Inductive cbody :=
| CScalar (url : option string)
| CObject (fields : list cfield) (interfaces : list string)
| CInterface (fields : list cfield) (interfaces possible : list string)
| CUnion (possible : list string)
| CEnum (values : list cvalue)
| CInput (fields : list cinput).
Record cdef := { cd_name : string; cd_desc : option string; cd_body : cbody }.
Record cdirective := { cx_name : string; cx_desc : option string; cx_locations : list string;
                       cx_args : list cinput; cx_repeatable : bool }.
Record cschema := { c_desc : option string; c_types : list cdef; c_query : string; c_mutation : option string;
                    c_subscription : option string; c_directives : list cdirective }.

(** ** The visible part of a schema *)
Fixpoint ctype_of (name : string) (t : ty) : ctype :=
  let non_null (required : bool) t := if required then CNonNull t else t in
  match t with
  | Named r => non_null r (CNamed name)
  | ListOf e r => non_null r (CList (ctype_of name e))
  end.
(** At most one @deprecated; its reason. *)
Inductive deprecated_as : list directive -> deprecation -> Prop :=
| da_nil : deprecated_as [] None
| da_other l d : deprecated_as l d -> deprecated_as (OtherDirective :: l) d
| da_here l r : deprecated_as l None -> deprecated_as (Deprecated r :: l) (Some r).

(** The definition behind a position, if it is accessible. *)
Definition named (g : schema) (id : nat) (name : string) : Prop :=
  exists d, nth_error (s_types g) id = Some d /\ t_hidden d = false /\ t_name d = name.
Definition shows_type (g : schema) (ty : nat * wrapping) (c : ctype) : Prop :=
  exists t name, denotes (snd ty) t /\ named g (fst ty) name /\ c = ctype_of name t.

(** [keep hidden R l l']: [l'] shows, in order, the elements of [l] that are not hidden. *)
Inductive keep {A B} (hidden : A -> Prop) (R : A -> B -> Prop) : list A -> list B -> Prop :=
| keep_nil : keep hidden R [] []
| keep_hidden a l l' : hidden a -> keep hidden R l l' -> keep hidden R (a :: l) l'
| keep_shown a b l l' : ~ hidden a -> R a b -> keep hidden R l l' -> keep hidden R (a :: l) (b :: l').

Record shows_input (g : schema) (v : ivalue) (c : cinput) : Prop := {
  si_name : ci_name c = v_name v; si_desc : ci_desc c = v_desc v; si_ty : shows_type g (v_ty v) (ci_ty c);
  si_default : ci_default c = v_default v; si_dep : deprecated_as (v_dirs v) (ci_dep c) }.
Definition shows_inputs (g : schema) := keep (fun v => v_hidden v = true) (shows_input g).
(** The fields of introspection itself are not shown. *)
Definition introspection_field (f : field) : Prop := f_name f = "__schema" \/ f_name f = "__type".
Record shows_field (g : schema) (f : field) (c : cfield) : Prop := {
  sf_name : cf_name c = f_name f; sf_desc : cf_desc c = f_desc f; sf_args : shows_inputs g (f_args f) (cf_args c);
  sf_ty : shows_type g (f_ty f) (cf_ty c); sf_dep : deprecated_as (f_dirs f) (cf_dep c) }.
Definition shows_fields (g : schema) := keep (fun f => f_hidden f = true \/ introspection_field f) (shows_field g).
Record shows_value (e : evalue) (c : cvalue) : Prop := {
  sv_name : cv_name c = e_name e; sv_desc : cv_desc c = e_desc e; sv_dep : deprecated_as (e_dirs e) (cv_dep c) }.
Definition shows_values := keep (fun e => e_hidden e = true) shows_value.
Definition shows_names (g : schema) :=
  keep (fun id => exists d, nth_error (s_types g) id = Some d /\ t_hidden d = true) (named g).

Inductive shows_body (g : schema) : body -> cbody -> Prop :=
| sb_scalar url : shows_body g (Scalar url) (CScalar url)
| sb_object fs is cfs cis : shows_fields g fs cfs -> shows_names g is cis ->
    shows_body g (Object fs is) (CObject cfs cis)
| sb_interface fs is ps cfs cis cps : shows_fields g fs cfs -> shows_names g is cis -> shows_names g ps cps ->
    shows_body g (Interface fs is ps) (CInterface cfs cis cps)
| sb_union ps cps : shows_names g ps cps -> shows_body g (Union ps) (CUnion cps)
| sb_enum vs cvs : shows_values vs cvs -> shows_body g (Enum vs) (CEnum cvs)
| sb_input o fs cfs : shows_inputs g fs cfs -> shows_body g (Input o fs) (CInput cfs).
Record shows_def (g : schema) (d : tdef) (c : cdef) : Prop := {
  sd_name : cd_name c = t_name d; sd_desc : cd_desc c = t_desc d; sd_body : shows_body g (t_body d) (cd_body c) }.
Record shows_directive (g : schema) (d : idirective) (c : cdirective) : Prop := {
  sx_name : cx_name c = d_name d; sx_desc : cx_desc c = d_desc d; sx_locations : cx_locations c = d_locations d;
  sx_args : shows_inputs g (d_args d) (cx_args c); sx_repeatable : cx_repeatable c = d_repeatable d }.
Definition shows_root (g : schema) (id : option nat) (name : option string) : Prop :=
  match id, name with Some id, Some name => named g id name | None, None => True | _, _ => False end.
Record shows (g : schema) (c : cschema) : Prop := {
  sh_desc : c_desc c = s_desc g;
  sh_types : keep (fun d => t_hidden d = true) (shows_def g) (s_types g) (c_types c);
  sh_query : named g (s_query g) (c_query c);
  sh_mutation : shows_root g (s_mutation g) (c_mutation c);
  sh_subscription : shows_root g (s_subscription g) (c_subscription c);
  sh_directives : Forall2 (shows_directive g) (s_directives g) (c_directives c) }.

(** Names of types are distinct; "__schema" and "__type" are the two fields of introspection and
    no other fields (names that begin with two underscores are reserved). *)
Definition fields_of (d : tdef) : list field :=
  match t_body d with Object fs _ | Interface fs _ _ => fs | _ => [] end.
Record well_formed (g : schema) : Prop := {
  wf_names : NoDup (map t_name (s_types g));
  wf_meta : forall d f, In d (s_types g) -> In f (fields_of d) ->
    (f_name f = "__type" <-> f_id f = s_type_field g) /\ (f_name f = "__schema" <-> f_id f = s_schema_field g) }.

(** ** The answer to a query *)
Definition lookup (c : cschema) (name : string) : option cdef :=
  find (fun d => String.eqb (cd_name d) name) (c_types c).

(** What a part of the answer is about. *)
Inductive thing :=
| XSchema | XType (t : ctype) | XField (f : cfield) | XInput (v : cinput) | XDirective (d : cdirective) | XValue (v : cvalue).
Definition typename (x : thing) : string :=
  match x with
  | XSchema => "__Schema" | XType _ => "__Type" | XField _ => "__Field" | XInput _ => "__InputValue"
  | XDirective _ => "__Directive" | XValue _ => "__EnumValue"
  end.
Inductive reply := RValue (v : value) | ROne (x : thing) | RMany (xs : list thing).

Section ask.
  Variable c : cschema.
  Variable vars : string -> vvalue.

  (** "includeDeprecated: Boolean = false": null counts as false. *)
  Definition included (a : arg) : bool :=
    match a with
    | ADefault | ANull => false
    | ABool b => b
    | AVar x => match vars x with VBool b => b | _ => false end
    end.
  Definition wanted (a : arg) (d : deprecation) : bool := match d with None => true | Some _ => included a end.
  Definition inputs (a : arg) (l : list cinput) : reply := RMany (map XInput (filter (fun v => wanted a (ci_dep v)) l)).
  Definition flag (d : deprecation) : reply := RValue (RBool (match d with Some _ => true | None => false end)).
  Definition reason (d : deprecation) : reply := RValue (match d with Some (Some r) => RStr r | _ => RNull end).
  Definition text (o : option string) : reply := RValue (match o with Some s => RStr s | None => RNull end).
  Definition types (l : list string) : reply := RMany (map (fun n => XType (CNamed n)) l).
  Definition null : reply := RValue RNull.

  Definition kind (b : cbody) : string :=
    match b with
    | CScalar _ => "SCALAR" | CObject _ _ => "OBJECT" | CInterface _ _ _ => "INTERFACE" | CUnion _ => "UNION"
    | CEnum _ => "ENUM" | CInput _ => "INPUT_OBJECT"
    end.
  (** Section 4.2: the fields of each type of introspection; [None]: there is no such field. *)
  Definition reply_type (t : ctype) (field : string) (a : arg) : option reply :=
    if existsb (String.eqb field) ["kind"; "name"; "description"; "fields"; "interfaces"; "possibleTypes";
                                   "enumValues"; "inputFields"; "ofType"; "specifiedByURL"] then
      match t with
      | CNonNull t => Some (if String.eqb field "kind" then RValue (RStr "NON_NULL")
                            else if String.eqb field "ofType" then ROne (XType t) else null)
      | CList t => Some (if String.eqb field "kind" then RValue (RStr "LIST")
                         else if String.eqb field "ofType" then ROne (XType t) else null)
      | CNamed n =>
          match lookup c n with
          | None => None
          | Some d => Some (
              if String.eqb field "kind" then RValue (RStr (kind (cd_body d)))
              else if String.eqb field "name" then RValue (RStr n)
              else if String.eqb field "description" then text (cd_desc d)
              else match cd_body d with
              | CScalar url => if String.eqb field "specifiedByURL" then text url else null
              | CObject fs is =>
                  if String.eqb field "fields" then RMany (map XField (filter (fun f => wanted a (cf_dep f)) fs))
                  else if String.eqb field "interfaces" then types is else null
              | CInterface fs is ps =>
                  if String.eqb field "fields" then RMany (map XField (filter (fun f => wanted a (cf_dep f)) fs))
                  else if String.eqb field "interfaces" then types is
                  else if String.eqb field "possibleTypes" then types ps else null
              | CUnion ps => if String.eqb field "possibleTypes" then types ps else null
              | CEnum vs =>
                  if String.eqb field "enumValues" then RMany (map XValue (filter (fun v => wanted a (cv_dep v)) vs))
                  else null
              | CInput fs => if String.eqb field "inputFields" then inputs a fs else null
              end)
          end
      end
    else None.
  Definition one_of (l : list (string * reply)) (field : string) : option reply :=
    match find (fun p => String.eqb (fst p) field) l with Some (_, r) => Some r | None => None end.
  Definition root (o : option string) : reply := match o with Some n => ROne (XType (CNamed n)) | None => null end.
  Definition reply_of (x : thing) (field : string) (a : arg) : option reply :=
    match x with
    | XSchema => one_of [("description", text (c_desc c)); ("types", types (map cd_name (c_types c)));
                         ("queryType", root (Some (c_query c))); ("mutationType", root (c_mutation c));
                         ("subscriptionType", root (c_subscription c));
                         ("directives", RMany (map XDirective (c_directives c)))] field
    | XType t => reply_type t field a
    | XField f => one_of [("name", RValue (RStr (cf_name f))); ("description", text (cf_desc f));
                          ("args", inputs a (cf_args f)); ("type", ROne (XType (cf_ty f)));
                          ("isDeprecated", flag (cf_dep f)); ("deprecationReason", reason (cf_dep f))] field
    | XInput v => one_of [("name", RValue (RStr (ci_name v))); ("description", text (ci_desc v));
                          ("type", ROne (XType (ci_ty v))); ("defaultValue", text (ci_default v));
                          ("isDeprecated", flag (ci_dep v)); ("deprecationReason", reason (ci_dep v))] field
    | XDirective d => one_of [("name", RValue (RStr (cx_name d))); ("description", text (cx_desc d));
                              ("locations", RValue (RList (map RStr (cx_locations d))));
                              ("args", inputs a (cx_args d)); ("isRepeatable", RValue (RBool (cx_repeatable d)))] field
    | XValue v => one_of [("name", RValue (RStr (cv_name v))); ("description", text (cv_desc v));
                          ("isDeprecated", flag (cv_dep v)); ("deprecationReason", reason (cv_dep v))] field
    end.
End ask.

(** [answers c vars s x v]: [v] is the answer of the client's schema for the selection [s] on [x]. *)
Inductive answers (c : cschema) (vars : string -> vvalue) : shape -> thing -> value -> Prop :=
| an_object fields typenames x l : answers_fields c vars fields x l ->
    answers c vars (Shape fields typenames) x (RObj (l ++ map (fun k => (k, RStr (typename x))) typenames))
with answers_fields (c : cschema) (vars : string -> vvalue) : list (finfo * option shape) -> thing -> list (string * value) -> Prop :=
| af_nil x : answers_fields c vars [] x []
| af_value i o fs x v l : reply_of c vars x (i_name i) (i_include i) = Some (RValue v) ->
    answers_fields c vars fs x l -> answers_fields c vars ((i, o) :: fs) x ((i_key i, v) :: l)
| af_one i s fs x y v l : reply_of c vars x (i_name i) (i_include i) = Some (ROne y) -> answers c vars s y v ->
    answers_fields c vars fs x l -> answers_fields c vars ((i, Some s) :: fs) x ((i_key i, v) :: l)
| af_many i s fs x ys vs l : reply_of c vars x (i_name i) (i_include i) = Some (RMany ys) ->
    answers_each c vars s ys vs ->
    answers_fields c vars fs x l -> answers_fields c vars ((i, Some s) :: fs) x ((i_key i, RList vs) :: l)
with answers_each (c : cschema) (vars : string -> vvalue) : shape -> list thing -> list value -> Prop :=
| ae_nil s : answers_each c vars s [] []
| ae_cons s x v xs vs : answers c vars s x v -> answers_each c vars s xs vs ->
    answers_each c vars s (x :: xs) (v :: vs).

(** A query that validation lets through: the fields exist, objects have a selection; no
    "includeDeprecated" is null. *)
Definition not_null (vars : string -> vvalue) (a : arg) : Prop :=
  match a with ANull => False | AVar x => vars x <> VNull | _ => True end.
(** The fields of the types of introspection (section 4.2) with the object they lead to. *)
Definition members (object : string) : list (string * option string) :=
  if String.eqb object "__Schema" then
    [("description", None); ("types", Some "__Type"); ("queryType", Some "__Type"); ("mutationType", Some "__Type");
     ("subscriptionType", Some "__Type"); ("directives", Some "__Directive")]
  else if String.eqb object "__Type" then
    [("kind", None); ("name", None); ("description", None); ("fields", Some "__Field"); ("interfaces", Some "__Type");
     ("possibleTypes", Some "__Type"); ("enumValues", Some "__EnumValue"); ("inputFields", Some "__InputValue");
     ("ofType", Some "__Type"); ("specifiedByURL", None)]
  else if String.eqb object "__Field" then
    [("name", None); ("description", None); ("args", Some "__InputValue"); ("type", Some "__Type");
     ("isDeprecated", None); ("deprecationReason", None)]
  else if String.eqb object "__InputValue" then
    [("name", None); ("description", None); ("type", Some "__Type"); ("defaultValue", None);
     ("isDeprecated", None); ("deprecationReason", None)]
  else if String.eqb object "__EnumValue" then
    [("name", None); ("description", None); ("isDeprecated", None); ("deprecationReason", None)]
  else if String.eqb object "__Directive" then
    [("name", None); ("description", None); ("locations", None); ("args", Some "__InputValue"); ("isRepeatable", None)]
  else [].
Inductive valid (vars : string -> vvalue) : string -> shape -> Prop :=
| va_shape object fields typenames : valid_fields vars object fields -> valid vars object (Shape fields typenames)
with valid_fields (vars : string -> vvalue) : string -> list (finfo * option shape) -> Prop :=
| vf_nil object : valid_fields vars object []
| vf_leaf object i o fs : In (i_name i, None) (members object) -> not_null vars (i_include i) ->
    valid_fields vars object fs -> valid_fields vars object ((i, o) :: fs)
| vf_object object i s sub fs : In (i_name i, Some sub) (members object) -> not_null vars (i_include i) ->
    valid vars sub s -> valid_fields vars object fs -> valid_fields vars object ((i, Some s) :: fs).
