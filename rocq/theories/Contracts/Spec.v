(** Specification of what clients see of a schema. Nothing here mentions the loops of the code. *)
From Coq Require Import String List Arith ZArith Bool.
From Verif.Contracts Require Import Model.
Import ListNotations.
Local Open Scope nat_scope.
Local Open Scope list_scope.

(** ** Well-formed graphs: what the builder guarantees (parents and lists of parts agree). *)
Record wf (g : graph) : Prop := MkWf {
  wf_fields : forall e f, In f (entity_fields g e) -> f < List.length (g_fields g) /\ f_parent (field_of g f) = e;
  wf_field_parent : forall f, f < List.length (g_fields g) -> In f (entity_fields g (f_parent (field_of g f)));
  wf_field_output : forall f, f < List.length (g_fields g) -> forall o, f_ty (field_of g f) <> TInput o;
  wf_args : forall f v, In v (f_args (field_of g f)) -> v < List.length (g_values g) /\ v_parent (value_of g v) = PField f;
  wf_inputs : forall o v, In v (input_of g o) -> v < List.length (g_values g) /\ v_parent (value_of g v) = PInput o;
  wf_value_parent : forall v, v < List.length (g_values g) ->
    match v_parent (value_of g v) with
    | PField f => f < List.length (g_fields g) /\ In v (f_args (field_of g f))
    | PInput o => In v (input_of g o)
    end;
  wf_value_input : forall v, v < List.length (g_values g) ->
    match v_ty (value_of g v) with TScalar _ | TEnum _ | TInput _ => True | _ => False end;
  wf_enums : forall e x, In x (enum_of g e) -> x < List.length (g_enum_values g) /\ nth x (g_enum_values g) 0 = e;
  wf_enum_parent : forall x, x < List.length (g_enum_values g) -> In x (enum_of g (nth x (g_enum_values g) 0)) }.

(** ** Hidden sites: the least set that contains the marked ones and that makes sense for clients.

    - an input value that is internal, or has a hidden type, can't be given;
    - if it is required, neither can anything be done with the field or input object it belongs to;
    - a field of a hidden type is hidden;
    - a type none of whose parts is left is hidden. *)
Section Hidden.
Variables (g : graph) (m : marks).
Inductive hidden : site -> Prop :=
| H_mark s : m s = true -> hidden s
| H_internal v : v < List.length (g_values g) -> v_internal (value_of g v) = true -> hidden (SValue v)
| H_value v : v < List.length (g_values g) -> hidden (SType (v_ty (value_of g v))) -> hidden (SValue v)
| H_required_arg v f : v < List.length (g_values g) -> v_parent (value_of g v) = PField f ->
    v_required (value_of g v) = true -> v_internal (value_of g v) = false -> hidden (SValue v) -> hidden (SField f)
| H_required_input v o : v < List.length (g_values g) -> v_parent (value_of g v) = PInput o ->
    v_required (value_of g v) = true -> v_internal (value_of g v) = false -> hidden (SValue v) -> hidden (SType (TInput o))
| H_field f : f < List.length (g_fields g) -> hidden (SType (f_ty (field_of g f))) -> hidden (SField f)
| H_object o : o < List.length (g_objects g) -> (forall f, In f (o_fields (object_of g o)) -> hidden (SField f)) -> hidden (SType (TObject o))
| H_interface i : i < List.length (g_interfaces g) -> (forall f, In f (i_fields (interface_of g i)) -> hidden (SField f)) -> hidden (SType (TInterface i))
| H_union u : u < List.length (g_unions g) -> (forall o, In o (union_of g u) -> hidden (SType (TObject o))) -> hidden (SType (TUnion u))
| H_enum e : e < List.length (g_enums g) -> (forall x, In x (enum_of g e) -> hidden (SEnumValue x)) -> hidden (SType (TEnum e))
| H_input o : o < List.length (g_inputs g) -> (forall v, In v (input_of g o) -> hidden (SValue v)) -> hidden (SType (TInput o)).
End Hidden.

(** A type that only loses its last part in the process: the code does not look again at the input
    values of such a type. *)
Definition emptied (g : graph) (m : marks) (t : tdef) : Prop :=
  m (SType t) = false /\
  match t with
  | TEnum e => e < List.length (g_enums g) /\ forall x, In x (enum_of g e) -> m (SEnumValue x) = true
  | TInput o => o < List.length (g_inputs g) /\ forall v, In v (input_of g o) -> hidden g m (SValue v)
  | _ => False
  end.

(** A schema makes sense for clients: nothing visible refers to something hidden, except for the
    types of input values ([values]). *)
Record usable (g : graph) (m : marks) (values : Prop) : Prop := MkUsable {
  u_field : forall f, f < List.length (g_fields g) -> m (SField f) = false -> m (SType (f_ty (field_of g f))) = false;
  u_args : forall f v, f < List.length (g_fields g) -> m (SField f) = false -> In v (f_args (field_of g f)) ->
    m (SValue v) = false \/ v_required (value_of g v) = false \/ v_internal (value_of g v) = true;
  u_inputs : forall o v, m (SType (TInput o)) = false -> In v (input_of g o) ->
    m (SValue v) = false \/ v_required (value_of g v) = false \/ v_internal (value_of g v) = true;
  u_internal : forall v, v < List.length (g_values g) -> m (SValue v) = false -> v_internal (value_of g v) = false;
  u_object : forall o, o < List.length (g_objects g) -> m (SType (TObject o)) = false ->
    exists f, In f (o_fields (object_of g o)) /\ m (SField f) = false;
  u_interface : forall i, i < List.length (g_interfaces g) -> m (SType (TInterface i)) = false ->
    exists f, In f (i_fields (interface_of g i)) /\ m (SField f) = false;
  u_union : forall u, u < List.length (g_unions g) -> m (SType (TUnion u)) = false ->
    exists o, In o (union_of g u) /\ m (SType (TObject o)) = false;
  u_enum : forall e, e < List.length (g_enums g) -> m (SType (TEnum e)) = false ->
    exists x, In x (enum_of g e) /\ m (SEnumValue x) = false;
  u_input : forall o, o < List.length (g_inputs g) -> m (SType (TInput o)) = false ->
    exists v, In v (input_of g o) /\ m (SValue v) = false;
  u_values : values -> forall v, v < List.length (g_values g) -> m (SValue v) = false -> m (SType (v_ty (value_of g v))) = false }.

(** ** Introspection: everything that Query.__type and Query.__schema lead to. *)
Section Meta.
Variable g : graph.
Inductive meta : site -> Prop :=
| M_field f : In f (g_meta g) -> meta (SField f)
| M_arg f v : meta (SField f) -> In v (f_args (field_of g f)) -> meta (SValue v)
| M_type f : meta (SField f) -> meta (SType (f_ty (field_of g f)))
| M_value_type v : meta (SValue v) -> meta (SType (v_ty (value_of g v)))
| M_object_field o f : meta (SType (TObject o)) -> In f (o_fields (object_of g o)) -> meta (SField f)
| M_object_interface o i : meta (SType (TObject o)) -> In i (o_interfaces (object_of g o)) -> meta (SType (TInterface i))
| M_interface_field i f : meta (SType (TInterface i)) -> In f (i_fields (interface_of g i)) -> meta (SField f)
| M_interface_object i o : meta (SType (TInterface i)) -> In o (i_possible (interface_of g i)) -> meta (SType (TObject o))
| M_union u o : meta (SType (TUnion u)) -> In o (union_of g u) -> meta (SType (TObject o))
| M_enum e x : meta (SType (TEnum e)) -> In x (enum_of g e) -> meta (SEnumValue x)
| M_input o v : meta (SType (TInput o)) -> In v (input_of g o) -> meta (SValue v).
End Meta.

Definition in_range (g : graph) (t : tdef) : Prop :=
  match t with
  | TScalar n => n < List.length (g_scalars g)
  | TObject n => n < List.length (g_objects g)
  | TInterface n => n < List.length (g_interfaces g)
  | TUnion n => n < List.length (g_unions g)
  | TEnum n => n < List.length (g_enums g)
  | TInput n => n < List.length (g_inputs g)
  end.

(** The types that are used exist. *)
Record wf_types (g : graph) : Prop := MkWfTypes {
  wt_field : forall f, f < List.length (g_fields g) -> in_range g (f_ty (field_of g f));
  wt_value : forall v, v < List.length (g_values g) -> in_range g (v_ty (value_of g v));
  wt_interfaces : forall o i, In i (o_interfaces (object_of g o)) -> i < List.length (g_interfaces g);
  wt_possible : forall i o, In o (i_possible (interface_of g i)) -> o < List.length (g_objects g);
  wt_members : forall u o, In o (union_of g u) -> o < List.length (g_objects g);
  wt_meta : forall f, In f (g_meta g) -> In f (o_fields (object_of g (g_query g)));
  wt_query : g_query g < List.length (g_objects g);
  wt_mutation : forall o, g_mutation g = Some o -> o < List.length (g_objects g);
  wt_subscription : forall o, g_subscription g = Some o -> o < List.length (g_objects g) }.

(** What the builder adds for introspection has fields, values and no internal arguments. *)
Record wf_meta (g : graph) : Prop := MkWfMeta {
  wm_some : g_meta g <> [];
  wm_object : forall o, meta g (SType (TObject o)) -> o_fields (object_of g o) <> [];
  wm_interface : forall i, meta g (SType (TInterface i)) -> i_fields (interface_of g i) <> [];
  wm_union : forall u, meta g (SType (TUnion u)) -> union_of g u <> [];
  wm_enum : forall e, meta g (SType (TEnum e)) -> enum_of g e <> [];
  wm_input : forall o, meta g (SType (TInput o)) -> input_of g o <> [];
  wm_internal : forall v, meta g (SValue v) -> v_internal (value_of g v) = false }.

(** Scalars of the specification and root types. *)
Definition builtin (g : graph) (s : site) : Prop :=
  exists n, s = SType (TScalar n) /\ n < List.length (g_scalars g) /\
            In (nth n (g_scalars g) EmptyString) ["Boolean"%string; "String"%string; "Int"%string; "Float"%string; "ID"%string].
Definition root (g : graph) (s : site) : Prop :=
  exists o, s = SType (TObject o) /\ (o = g_query g \/ g_mutation g = Some o \/ g_subscription g = Some o).

(** ** Reachable types, through what is not marked. *)
Section Reach.
Variables (g : graph) (m : marks).
Inductive reachable : tdef -> Prop :=
| R_root o : root g (SType (TObject o)) -> m (SType (TObject o)) = false -> reachable (TObject o)
| R_field e f : reachable (entity_type e) -> In f (entity_fields g e) -> m (SField f) = false ->
    m (SType (f_ty (field_of g f))) = false -> reachable (f_ty (field_of g f))
| R_arg e f v : reachable (entity_type e) -> In f (entity_fields g e) -> m (SField f) = false ->
    In v (f_args (field_of g f)) -> m (SValue v) = false -> m (SType (v_ty (value_of g v))) = false -> reachable (v_ty (value_of g v))
| R_input o v : reachable (TInput o) -> In v (input_of g o) -> m (SValue v) = false ->
    m (SType (v_ty (value_of g v))) = false -> reachable (v_ty (value_of g v))
| R_interface o i : reachable (TObject o) -> In i (o_interfaces (object_of g o)) -> m (SType (TInterface i)) = false -> reachable (TInterface i)
| R_possible i o : reachable (TInterface i) -> In o (i_possible (interface_of g i)) -> m (SType (TObject o)) = false -> reachable (TObject o)
| R_member u o : reachable (TUnion u) -> In o (union_of g u) -> m (SType (TObject o)) = false -> reachable (TObject o).
End Reach.

(** ** Decisions: -128 to -1 hide, 0 to 127 show; the further from zero the stronger. *)
Local Open Scope Z_scope.
Definition strength (x : Z) : Z := if x <? 0 then - x else x + 1.
Definition i8 (x : Z) : Prop := -128 <= x <= 127.

(** [d]: the decision made for the site itself. A part follows what it belongs to if that decision
    is stronger. *)
Definition prevailing (own around : Z) : Z := if strength own <? strength around then around else own.

(** The decision that applies to a field, with its type; to an argument, with the field and its type. *)
Definition field_decision (g : graph) (d : decisions) (f : nat) : Z :=
  prevailing (d (SField f)) (d (SType (entity_type (f_parent (field_of g f))))).
Definition value_decision (g : graph) (d : decisions) (v : nat) : Z :=
  match v_parent (value_of g v) with
  | PField f => prevailing (d (SValue v)) (field_decision g d f)
  | PInput o => prevailing (d (SValue v)) (d (SType (TInput o)))
  end.
Definition enum_value_decision (g : graph) (d : decisions) (x : nat) : Z :=
  prevailing (d (SEnumValue x)) (d (SType (TEnum (nth x (g_enum_values g) 0%nat)))).

(** [x] is shown in spite of the decision [around] about what it belongs to. *)
Definition rescues (x around : Z) : Prop := 0 <= x /\ strength around < strength x.

(** What a contract hides: sites decided to be hidden, unless a part of them that is to be shown
    with a stronger decision keeps them visible. *)
Inductive hides (g : graph) (d : decisions) : site -> Prop :=
| HI_enum_value x : (x < List.length (g_enum_values g))%nat -> enum_value_decision g d x < 0 -> hides g d (SEnumValue x)
| HI_value v : (v < List.length (g_values g))%nat -> value_decision g d v < 0 -> hides g d (SValue v)
| HI_field f : (f < List.length (g_fields g))%nat -> field_decision g d f < 0 ->
    (forall v, In v (f_args (field_of g f)) -> ~ rescues (d (SValue v)) (field_decision g d f)) -> hides g d (SField f)
| HI_entity e : d (SType (entity_type e)) < 0 ->
    (forall f, In f (entity_fields g e) -> ~ rescues (d (SField f)) (d (SType (entity_type e)))) ->
    (forall f v, In f (entity_fields g e) -> In v (f_args (field_of g f)) ->
       ~ (rescues (d (SValue v)) (d (SType (entity_type e))) /\ strength (d (SField f)) <= strength (d (SValue v)))) ->
    hides g d (SType (entity_type e))
| HI_enum e : d (SType (TEnum e)) < 0 ->
    (forall x, In x (enum_of g e) -> ~ rescues (d (SEnumValue x)) (d (SType (TEnum e)))) -> hides g d (SType (TEnum e))
| HI_input o : d (SType (TInput o)) < 0 ->
    (forall v, In v (input_of g o) -> ~ rescues (d (SValue v)) (d (SType (TInput o)))) -> hides g d (SType (TInput o))
| HI_other t : match t with TScalar _ | TUnion _ => True | _ => False end -> d (SType t) < 0 -> hides g d (SType t).

(** The decision made for a site: the strongest of its directives, or the default. [l]: the
    decision for each directive and the sites it is on. *)
Definition decided (default : Z) (l : list (Z * list site)) (s : site) (x : Z) : Prop :=
  (exists r, In r l /\ In s (snd r) /\ fst r = x /\ forall r', In r' l -> In s (snd r') -> strength (fst r') <= strength x) \/
  (x = default /\ forall r, In r l -> ~ In s (snd r)).

(** Sites of the schema. *)
Local Open Scope nat_scope.
Definition exists_site (g : graph) (s : site) : Prop :=
  match s with
  | SType _ => True
  | SField f => f < List.length (g_fields g)
  | SValue v => v < List.length (g_values g)
  | SEnumValue x => x < List.length (g_enum_values g)
  end.

(** What an extension answered: one decision per directive, with the sites it is on. Answers that
    are missing count as -1, the others are ignored. *)
Definition results (sites : list (list site)) (answer : list Z) (l : list (Z * list site)) : Prop :=
  List.length l = List.length sites /\
  forall i, i < List.length sites -> nth i l (0%Z, []) = (nth i answer (-1)%Z, nth i sites []).
