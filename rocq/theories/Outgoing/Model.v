(** The query sent to a GraphQL subgraph:
    /repo/crates/engine/src/resolver/graphql/request/prepare.rs and types.rs,
    with the schema's view of a subgraph they consult. *)
From Coq Require Import String Ascii List Arith Bool DecimalString.
Import ListNotations.
Local Open Scope string_scope.
Local Open Scope nat_scope.
Local Open Scope list_scope.

(** ** The schema, as seen for one subgraph

    Ids are [nat].  Everything is relative to the subgraph the query is for:
    - [oname], [iname]: names of object and interface definitions;
    - [oexists], [iexists]: the subgraph is among [exists_in_subgraph_ids];
    - [impl o i]: [implements_interface_in_subgraph] (schema/src/object.rs:6-19),
      [member u o]: [has_member_in_subgraph] (schema/src/union.rs:12-21); both are
      binary searches in sorted records of the supergraph's [@join__implements]
      and [@join__unionMember], here membership;
    - [ipossible], [upossible]: [possible_types] in the supergraph. *)
Record view := View {
  oname : nat -> string;
  iname : nat -> string;
  oexists : nat -> bool;
  iexists : nat -> bool;
  impl : nat -> nat -> bool;
  member : nat -> nat -> bool;
  ipossible : nat -> list nat;
  upossible : nat -> list nat
}.

(** [EntityDefinition] and [CompositeType] of the schema. *)
Inductive entity := EObj (o : nat) | EItf (i : nat).
Inductive ctype := CObj (o : nat) | CItf (i : nat) | CUni (u : nat).

Definition entity_eqb (a b : entity) : bool :=
  match a, b with
  | EObj x, EObj y | EItf x, EItf y => Nat.eqb x y
  | _, _ => false
  end.

Definition entity_name (w : view) (e : entity) : string :=
  match e with EObj o => oname w o | EItf i => iname w i end.

(** [InterfaceDefinition::is_fully_implemented_in] (schema/src/interface.rs:8-10) over
    what [add_not_fully_implemented_in] computes
    (schema/src/builder/graph/directives/federation.rs:403-431): only the subgraphs the
    interface exists in are looked at. *)
Definition fully_i (w : view) (i : nat) : bool :=
  negb (existsb (fun o => iexists w i && negb (impl w o i)) (ipossible w i)).

(** The same for unions (schema/src/union.rs:8-10, federation.rs:433-457); a union exists
    in the subgraph when it has a member there. *)
Definition fully_u (w : view) (u : nat) : bool :=
  negb (existsb (fun o => existsb (member w u) (upossible w u) && negb (member w u o)) (upossible w u)).

(** [CompositeType::is_fully_implemented_in_subgraph] (schema/src/composite_type.rs:79-85). *)
Definition fully (w : view) (c : ctype) : bool :=
  match c with
  | CItf i => fully_i w i
  | CUni u => fully_u w u
  | CObj o => oexists w o
  end.

(** [CompositeType::possible_types_include_in_subgraph] (schema/src/composite_type.rs:87-97). *)
Definition includes (w : view) (c : ctype) (o : nat) : bool :=
  match c with
  | CItf i => impl w o i
  | CUni u => member w u o
  | CObj o' => Nat.eqb o' o && oexists w o
  end.

(** ** Types and values *)

(** [TypeRecord] with the name of its definition instead of its id. *)
Inductive ty := TName (n : string) (required : bool) | TList (t : ty) (required : bool).

Fixpoint ty_eqb (a b : ty) : bool :=
  match a, b with
  | TName n r, TName m s => String.eqb n m && Bool.eqb r s
  | TList t r, TList u s => ty_eqb t u && Bool.eqb r s
  | _, _ => false
  end.

(** [Display] of a type. *)
Fixpoint ty_text (t : ty) : string :=
  match t with
  | TName n r => (n ++ (if r then "!" else ""))%string
  | TList t r => ("[" ++ ty_text t ++ "]" ++ (if r then "!" else ""))%string
  end.

(** [PlanValueRecord]: [VConst] is a value of the query or of the schema that
    [value_as_sanitized_query_const_value_str] gives a text for (an enum value or a boolean,
    src/prepare/cached/query_plan/field/argument.rs:53-91); [VVariable] a variable of the
    client's operation; [VQuery], [VSchema], [VInjection] any other value, by its id. *)
Inductive value :=
| VConst (s : string)
| VVariable (x : nat)
| VQuery (v : nat)
| VSchema (v : nat)
| VInjection (v : nat).

(** [QueryVariable] (prepare.rs:113-118). *)
Record qvar := QVar { qname : string; qty : ty; qvalue : value }.

(** ** Planned fields

    A field of the partition as [SubgraphField] shows it: its parent entity, the response key
    in the subgraph, the name, the arguments (name, type, value), the composite type of the
    field in the supergraph and, when a [SubgraphTypeRecord] exists for the subgraph, the
    composite type of that; and its selection set: [requires_typename],
    [data_fields_ordered_by_parent_entity_then_key] after the filter on included fields
    (src/prepare/operation_plan/model/selection_set.rs:31-42), and the lookup fields. *)
Inductive pfield := PField
  (parent : entity) (key name : string) (args : list (string * ty * value))
  (sgtype suptype : option ctype)
  (typename : bool) (data lookup : list pfield).

Definition pparent (f : pfield) : entity := let (e, _, _, _, _, _, _, _, _) := f in e.
Definition pkey (f : pfield) : string := let (_, k, _, _, _, _, _, _, _) := f in k.
Definition pname (f : pfield) : string := let (_, _, n, _, _, _, _, _, _) := f in n.
Definition pargs (f : pfield) : list (string * ty * value) := let (_, _, _, a, _, _, _, _, _) := f in a.
Definition psgtype (f : pfield) : option ctype := let (_, _, _, _, t, _, _, _, _) := f in t.
Definition psuptype (f : pfield) : option ctype := let (_, _, _, _, _, t, _, _, _) := f in t.
Definition ptypename (f : pfield) : bool := let (_, _, _, _, _, _, b, _, _) := f in b.
Definition pdata (f : pfield) : list pfield := let (_, _, _, _, _, _, _, d, _) := f in d.
Definition plookup (f : pfield) : list pfield := let (_, _, _, _, _, _, _, _, l) := f in l.

(** [ParentType] (prepare.rs:127-130). *)
Inductive ptype := PAny | PComp (c : ctype).

Section Builder.
  Variable w : view.
  (** [operation.variable_definitions]: names and types. *)
  Variable client : list (string * ty).
  (** [are_query_value_equivalent] and [is_query_value_equivalent_schema_value] on values
      other than variables (operation/src/model/input_value/query/eq.rs). *)
  Variable eq_qq eq_qs : nat -> nat -> bool.

  (** A buffer being written and the variables so far: appends text, may add variables. *)
  Definition writer := list qvar -> string * list qvar.

  Definition text (s : string) : writer := fun vs => (s, vs).
  Definition then_ (a b : writer) : writer :=
    fun vs => let (s, vs1) := a vs in let (t, vs2) := b vs1 in ((s ++ t)%string, vs2).
  Fixpoint all (l : list writer) : writer :=
    match l with
    | [] => text ""
    | a :: r => then_ a (all r)
    end.

  (** The comparison of values in [get_or_insert_var] (prepare.rs:376-395).  A variable is
      only equivalent to itself (eq.rs:173-174). *)
  Definition same_value (l r : value) : bool :=
    match l, r with
    | VVariable x, VVariable y => Nat.eqb x y
    | VQuery a, VQuery b => eq_qq a b
    | VQuery a, VSchema b => eq_qs a b
    | VSchema a, VQuery b => eq_qs b a
    | VSchema a, VSchema b => Nat.eqb a b
    | VInjection a, VInjection b => Nat.eqb a b
    | _, _ => false
    end.

  Definition decimal (n : nat) : string := NilZero.string_of_uint (Nat.to_uint n).

  (** The search of a name (prepare.rs:400-415).  The loop has no bound: [fuel] is the number
      of variables of the client plus one, see [C91_generated]. *)
  Fixpoint candidate (fuel : nat) (prefix : string) (n : nat) : option string :=
    match fuel with
    | 0 => None
    | S fuel =>
        let c := (prefix ++ "var" ++ decimal n)%string in
        if forallb (fun d => negb (String.eqb (fst d) c)) client then Some c
        else candidate fuel (prefix ++ "_")%string n
    end.

  (** [get_or_insert_var] (prepare.rs:358-426), returning the variable's name instead of its
      index, with which the caller looks the name up (prepare.rs:345-350). *)
  Definition get_or_insert (t : ty) (v : value) (vs : list qvar) : string * list qvar :=
    let '(name, t) :=
      match v with
      | VVariable x =>
          let d := nth x client ("", TName "" false) in (Some (fst d), snd d)
      | _ => (None, t)
      end in
    match find (fun q => ty_eqb (qty q) t && same_value (qvalue q) v) vs with
    | Some q => (qname q, vs)
    | None =>
        let n := match name with
                 | Some n => n
                 | None => match candidate (S (length client)) "" (length vs) with
                           | Some n => n
                           | None => ""
                           end
                 end in
        (n, vs ++ [QVar n t v])
    end.

  (** One argument (prepare.rs:338-351). *)
  Definition write_argument (a : string * ty * value) : writer :=
    let '(n, t, v) := a in
    match v with
    | VConst s => text (n ++ ": " ++ s)
    | _ => fun vs => let (x, vs') := get_or_insert t v vs in ((n ++ ": $" ++ x)%string, vs')
    end.

  (** [write_arguments] (prepare.rs:332-356). *)
  Definition write_arguments (l : list (string * ty * value)) : writer :=
    match l with
    | [] => text ""
    | a :: r =>
        then_ (text "(") (then_ (write_argument a)
          (then_ (all (map (fun b => then_ (text ", ") (write_argument b)) r)) (text ")")))
    end.

  (** [chunk_by] of itertools: maximal runs of fields with equal parent entities. *)
  Fixpoint chunk {A : Type} (l : list (entity * A)) : list (entity * list A) :=
    match l with
    | [] => []
    | (e, x) :: r =>
        match chunk r with
        | (e', xs) :: c => if entity_eqb e e' then (e, x :: xs) :: c else (e, [x]) :: (e', xs) :: c
        | [] => [(e, [x])]
        end
    end.

  (** [write_type_condition_and_entity_fields] (prepare.rs:280-296). *)
  Definition write_condition (e : entity) (fields : list writer) : writer :=
    then_ (text (" ... on " ++ entity_name w e ++ " {")) (then_ (all fields) (text " }")).

  (** The body of the loop over entities of [write_selection_set_fields]
      (prepare.rs:213-277). *)
  Definition write_entity (p : ctype) (c : entity * list writer) : writer :=
    let (e, fields) := c in
    match e with
    | EObj o =>
        match p with
        | CItf i => if impl w o i then write_condition e fields else text ""
        | CUni u => if member w u o then write_condition e fields else text ""
        | CObj _ => text ""
        end
    | EItf i =>
        if match p with CItf j => Nat.eqb i j | _ => false end then all fields
        else if fully_i w i then write_condition e fields
        else
          let objects := filter (oexists w) (ipossible w i) in
          then_
            (all (map (fun o =>
               if impl w o i then text ""
               else if fully w p || includes w p o then write_condition (EObj o) fields
               else text "") objects))
            (if existsb (fun o => impl w o i) objects then write_condition e fields else text "")
    end.

  (** [write_selection_set_fields] (prepare.rs:181-278). *)
  Definition write_set_fields (p : ptype) (data : list (entity * writer)) (lookup : list writer) : writer :=
    match p with
    | PAny => all (map (fun c => write_condition (fst c) (snd c)) (chunk data))
    | PComp (CObj _) => all (map snd data ++ lookup)
    | PComp c => all (map (write_entity c) (chunk data))
    end.

  (** [write_selection_set] (prepare.rs:158-179). *)
  Definition write_set (p : ptype) (typename : bool) (data : list (entity * writer)) (lookup : list writer) : writer :=
    fun vs =>
      let (s, vs') := then_ (text (if typename then " __typename" else "")) (write_set_fields p data lookup) vs in
      ((" {" ++ (if Nat.eqb (String.length s) 0 then " __typename @skip(if: true)" else s) ++ " }")%string, vs').

  (** [write_field] (prepare.rs:310-330). *)
  Fixpoint write_field (f : pfield) : writer :=
    match f with
    | PField _ key name args sgtype suptype typename data lookup =>
        then_ (text (" " ++ (if String.eqb key name then name else key ++ ": " ++ name)))
          (then_ (write_arguments args)
             (match (match sgtype with Some c => Some c | None => suptype end) with
              | Some c =>
                  write_set (PComp c) typename
                    (map (fun g => (pparent g, write_field g)) data) (map write_field lookup)
              | None => text ""
              end))
    end.

  Definition selection (p : ptype) (typename : bool) (data lookup : list pfield) : writer :=
    write_set p typename (map (fun g => (pparent g, write_field g)) data) (map write_field lookup).

  (** [write_operation_arguments_without_parenthesis] (prepare.rs:146-156). *)
  Fixpoint definitions (l : list qvar) : string :=
    match l with
    | [] => ""
    | [q] => ("$" ++ qname q ++ ": " ++ ty_text (qty q))%string
    | q :: r => ("$" ++ qname q ++ ": " ++ ty_text (qty q) ++ ", " ++ definitions r)%string
    end.

  Inductive kind := Query | Mutation | Subscription.

  Definition kind_text (k : kind) : string :=
    match k with Query => "query" | Mutation => "mutation" | Subscription => "subscription" end.

  (** [PreparedGraphqlOperation::build] (prepare.rs:21-58): the text and the variables. *)
  Definition build (k : kind) (o : nat) (typename : bool) (data lookup : list pfield) : string * list qvar :=
    let (s, vs) := selection (PComp (CObj o)) typename data lookup [] in
    ((kind_text k ++ (match vs with [] => "" | _ => "(" ++ definitions vs ++ ")" end) ++ s)%string, vs).

  (** [PreparedFederationEntityOperation::build] (prepare.rs:68-110): the text, the name of the
      variable for the entities, the other variables. *)
  Definition build_entities (typename : bool) (data lookup : list pfield) : string * string * list qvar :=
    let (s, vs) := selection PAny typename data lookup [] in
    let x := ("var" ++ decimal (length vs))%string in
    (("query($" ++ x ++ ": [_Any!]!" ++ (match vs with [] => "" | _ => "," ++ definitions vs end)
      ++ ") { _entities(representations: $" ++ x ++ ")" ++ s ++ " }")%string, x, vs).
End Builder.

(** ** The variables sent (types.rs:33-53)

    [sem v] is the JSON of a value once the client's variables are known, [None] when it is
    undefined; [None] as a whole is the panic of [unwrap] on an injected value. *)
Section Sent.
  Variable J : Type.
  Variable sem : value -> option J.

  Fixpoint sent_variables (vs : list qvar) : option (list (string * J)) :=
    match vs with
    | [] => Some []
    | q :: r =>
        match qvalue q with
        | VInjection _ => None
        | v =>
            match sent_variables r with
            | None => None
            | Some l => Some (match sem v with Some j => (qname q, j) :: l | None => l end)
            end
        end
    end.

  Definition sent (vs : list qvar) (extra : list (string * J)) : option (list (string * J)) :=
    match sent_variables vs with Some l => Some (l ++ extra) | None => None end.
End Sent.
