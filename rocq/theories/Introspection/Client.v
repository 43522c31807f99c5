(** What a client does with introspection: the introspection query and the schema it builds from
    the answer (as "getIntrospectionQuery" and "buildClientSchema" of GraphQL.js do).
    Part of the specification. *)
From Coq Require Import String List Bool.
From Verif Require Import Introspection.Model Introspection.Spec.
Import ListNotations.
Local Open Scope string_scope.
Local Open Scope list_scope.

(** ** The query; types are asked for with [d] levels of "ofType" *)
Definition leaf (name : string) : finfo * option shape := ({| i_key := name; i_name := name; i_include := ADefault |}, None).
Definition node (name : string) (s : shape) : finfo * option shape :=
  ({| i_key := name; i_name := name; i_include := ADefault |}, Some s).
Definition node_all (name : string) (s : shape) : finfo * option shape :=
  ({| i_key := name; i_name := name; i_include := ABool true |}, Some s).
Fixpoint type_ref (d : nat) : shape :=
  Shape (leaf "kind" :: leaf "name" :: match d with 0 => [] | S d => [node "ofType" (type_ref d)] end) [].
Section query.
  Variable d : nat.
  Definition input_shape : shape :=
    Shape [leaf "name"; leaf "description"; node "type" (type_ref d); leaf "defaultValue"; leaf "isDeprecated";
           leaf "deprecationReason"] [].
  Definition field_shape : shape :=
    Shape [leaf "name"; leaf "description"; node_all "args" input_shape; node "type" (type_ref d); leaf "isDeprecated";
           leaf "deprecationReason"] [].
  Definition value_shape : shape :=
    Shape [leaf "name"; leaf "description"; leaf "isDeprecated"; leaf "deprecationReason"] [].
  Definition type_shape : shape :=
    Shape [leaf "kind"; leaf "name"; leaf "description"; leaf "specifiedByURL"; node_all "fields" field_shape;
           node_all "inputFields" input_shape; node "interfaces" (type_ref d); node_all "enumValues" value_shape;
           node "possibleTypes" (type_ref d)] [].
  Definition directive_shape : shape :=
    Shape [leaf "name"; leaf "description"; leaf "isRepeatable"; leaf "locations"; node_all "args" input_shape] [].
  Definition introspection_query : shape :=
    Shape [leaf "description"; node "queryType" (Shape [leaf "name"] []); node "mutationType" (Shape [leaf "name"] []);
           node "subscriptionType" (Shape [leaf "name"] []); node "types" type_shape; node "directives" directive_shape] [].
End query.

(** ** The schema of the answer *)
Definition get (k : string) (v : value) : option value :=
  match v with
  | RObj l => match find (fun p => String.eqb (fst p) k) l with Some (_, v) => Some v | None => None end
  | _ => None
  end.
Definition obind {A B} (o : option A) (k : A -> option B) : option B := match o with Some a => k a | None => None end.
Definition get_str (k : string) (v : value) : option string :=
  match get k v with Some (RStr s) => Some s | _ => None end.
Definition get_opt (k : string) (v : value) : option (option string) :=
  match get k v with Some (RStr s) => Some (Some s) | Some RNull => Some None | _ => None end.
Definition get_bool (k : string) (v : value) : option bool :=
  match get k v with Some (RBool b) => Some b | _ => None end.
Fixpoint collect {A B} (f : A -> option B) (l : list A) : option (list B) :=
  match l with
  | [] => Some []
  | a :: l => obind (f a) (fun b => obind (collect f l) (fun r => Some (b :: r)))
  end.
Definition get_list {A} (k : string) (f : value -> option A) (v : value) : option (list A) :=
  match get k v with Some (RList l) => collect f l | _ => None end.

Fixpoint read_type (d : nat) (v : value) : option ctype :=
  obind (get_str "kind" v) (fun k =>
  if String.eqb k "NON_NULL" then
    match d with 0 => None | S d => obind (get "ofType" v) (fun v => option_map CNonNull (read_type d v)) end
  else if String.eqb k "LIST" then
    match d with 0 => None | S d => obind (get "ofType" v) (fun v => option_map CList (read_type d v)) end
  else option_map CNamed (get_str "name" v)).
Definition read_dep (v : value) : option deprecation :=
  obind (get_bool "isDeprecated" v) (fun b =>
  obind (get_opt "deprecationReason" v) (fun r => Some (if b then Some r else None))).
Section read.
  Variable d : nat.
  Definition read_input (v : value) : option cinput :=
    obind (get_str "name" v) (fun n => obind (get_opt "description" v) (fun de =>
    obind (obind (get "type" v) (read_type d)) (fun t => obind (get_opt "defaultValue" v) (fun df =>
    obind (read_dep v) (fun dp =>
    Some {| ci_name := n; ci_desc := de; ci_ty := t; ci_default := df; ci_dep := dp |}))))).
  Definition read_field (v : value) : option cfield :=
    obind (get_str "name" v) (fun n => obind (get_opt "description" v) (fun de =>
    obind (get_list "args" read_input v) (fun a => obind (obind (get "type" v) (read_type d)) (fun t =>
    obind (read_dep v) (fun dp =>
    Some {| cf_name := n; cf_desc := de; cf_args := a; cf_ty := t; cf_dep := dp |}))))).
  Definition read_value (v : value) : option cvalue :=
    obind (get_str "name" v) (fun n => obind (get_opt "description" v) (fun de =>
    obind (read_dep v) (fun dp => Some {| cv_name := n; cv_desc := de; cv_dep := dp |}))).
  Definition read_name (v : value) : option string :=
    match read_type d v with Some (CNamed n) => Some n | _ => None end.
  Definition read_body (v : value) : option cbody :=
    obind (get_str "kind" v) (fun k =>
    if String.eqb k "SCALAR" then option_map CScalar (get_opt "specifiedByURL" v)
    else if String.eqb k "OBJECT" then
      obind (get_list "fields" read_field v) (fun fs => obind (get_list "interfaces" read_name v) (fun is =>
      Some (CObject fs is)))
    else if String.eqb k "INTERFACE" then
      obind (get_list "fields" read_field v) (fun fs => obind (get_list "interfaces" read_name v) (fun is =>
      obind (get_list "possibleTypes" read_name v) (fun ps => Some (CInterface fs is ps))))
    else if String.eqb k "UNION" then option_map CUnion (get_list "possibleTypes" read_name v)
    else if String.eqb k "ENUM" then option_map CEnum (get_list "enumValues" read_value v)
    else if String.eqb k "INPUT_OBJECT" then option_map CInput (get_list "inputFields" read_input v)
    else None).
  Definition read_def (v : value) : option cdef :=
    obind (get_str "name" v) (fun n => obind (get_opt "description" v) (fun de =>
    obind (read_body v) (fun b => Some {| cd_name := n; cd_desc := de; cd_body := b |}))).
  Definition read_directive (v : value) : option cdirective :=
    obind (get_str "name" v) (fun n => obind (get_opt "description" v) (fun de =>
    obind (get_list "locations" (fun v => match v with RStr s => Some s | _ => None end) v) (fun l =>
    obind (get_list "args" read_input v) (fun a => obind (get_bool "isRepeatable" v) (fun r =>
    Some {| cx_name := n; cx_desc := de; cx_locations := l; cx_args := a; cx_repeatable := r |}))))).
  Definition read_root (k : string) (v : value) : option (option string) :=
    match get k v with Some RNull => Some None | Some v => option_map Some (get_str "name" v) | None => None end.
  Definition read_schema (v : value) : option cschema :=
    obind (get_opt "description" v) (fun de => obind (obind (get "queryType" v) (get_str "name")) (fun q =>
    obind (read_root "mutationType" v) (fun m => obind (read_root "subscriptionType" v) (fun s =>
    obind (get_list "types" read_def v) (fun ts => obind (get_list "directives" read_directive v) (fun ds =>
    Some {| c_desc := de; c_types := ts; c_query := q; c_mutation := m; c_subscription := s; c_directives := ds |})))))).
End read.

(** ** How deep the types of a schema are wrapped *)
Fixpoint wraps (t : ctype) : nat := match t with CNamed _ => 0 | CList t | CNonNull t => S (wraps t) end.
Definition shallow_inputs (d : nat) (l : list cinput) : Prop := Forall (fun v => wraps (ci_ty v) <= d) l.
Definition shallow_fields (d : nat) (l : list cfield) : Prop :=
  Forall (fun f => wraps (cf_ty f) <= d /\ shallow_inputs d (cf_args f)) l.
Definition shallow_def (d : nat) (c : cdef) : Prop :=
  match cd_body c with
  | CObject fs _ | CInterface fs _ _ => shallow_fields d fs
  | CInput fs => shallow_inputs d fs
  | _ => True
  end.
Definition shallow (d : nat) (c : cschema) : Prop :=
  Forall (shallow_def d) (c_types c) /\ Forall (fun x => shallow_inputs d (cx_args x)) (c_directives c).
