(** Arguments of extension directives: coercion when the schema is built
    (crates/engine/schema/src/builder/coerce/extension.rs, coerce/input_value_set.rs:24-35,
    coerce/mod.rs:14-16) and the views the extensions receive (crates/engine/schema/src/extension/,
    crates/engine/src/prepare/cached/extension/).

    Simplifications: errors are not told apart and carry nothing (the path of the value is dropped); names
    are strings instead of ids; [current_injection_stage] and [requirements], mutable fields that are only
    ever raised and extended, are returned beside the value; the union of field sets is a list.  Parsing
    and binding an [InputValueSet], a [FieldSet] or a template are functions given from outside. *)
From Coq Require Import String List ZArith Bool.
From Verif.Coercion Require Import Model.
Import ListNotations.
Local Open Scope string_scope.
Local Open Scope list_scope.

(** [Ok], refused, or a stack overflow (the recursion has no bound of its own). *)
Inductive outcome (A : Type) := Val (a : A) | Refused | Overflow.
Arguments Val {A} a. Arguments Refused {A}. Arguments Overflow {A}.

Definition andthen {A B} (r : outcome A) (f : A -> outcome B) : outcome B :=
  match r with Val a => f a | Refused => Refused | Overflow => Overflow end.

(** [cynic_parser::ConstValue] *)
Inductive value :=
| VNull
| VStr (s : string)
| VInt (z : Z)
| VFloat (m e : Z)
| VBool (b : bool)
| VEnum (s : string)
| VList (l : list value)
| VObj (fs : list (string * value)).

(** [sdl::Type]: the wrappers from the outside in, and the name. *)
Inductive wrapper := WNonNull | WList.
Record type := { wrappers : list wrapper; named : string }.

Definition is_list_wrapper (w : wrapper) : bool := match w with WList => true | WNonNull => false end.
Definition is_list (t : type) : bool := existsb is_list_wrapper (wrappers t).
Definition is_non_null (t : type) : bool := match wrappers t with WNonNull :: _ => true | _ => false end.

Record input := { iname : string; ity : type; idefault : option value }.

(** The definitions of the extension's SDL. *)
Inductive definition :=
| DScalarType
| DEnumType (values : list string)
| DInput (one_of : bool) (fields : list input)
| DOutput.

(** crates/engine/schema/src/builder/extension/mod.rs:29-34 *)
Inductive special := SInputValueSet | SUrlTemplate | SJsonTemplate | SFieldSet.

(** [InjectionStage], crates/engine/schema/src/extension/argument.rs:18-62 *)
Inductive stage := Static | Query | Response.
Definition rank (s : stage) : nat := match s with Static => 0 | Query => 1 | Response => 2 end.
Definition stage_max (a b : stage) : stage := if Nat.leb (rank b) (rank a) then a else b.

Section Extension.
  (** Bound input value sets, field sets and templates. *)
  Variables VS FS TPL : Type.

  (** [ExtensionInputValueRecord], crates/engine/schema/src/extension/input_value.rs:4-22.  [U64] is never
      built. *)
  Inductive ev :=
  | ENull
  | EStr (s : string)
  | EEnum (s : string)
  | EInt (z : Z)
  | EI64 (z : Z)
  | EFloat (m e : Z)
  | EBool (b : bool)
  | EMap (fs : list (string * ev))
  | EList (l : list ev)
  | EFieldSet (f : FS)
  | EValueSet (v : VS)
  | ETemplate (t : TPL).

  (** The extension's SDL: the names the special scalars have there, and the first definition of a name. *)
  Variable specials : list (string * special).
  Variable definitions : string -> option definition.
  (** Whether the directive stands on a field definition. *)
  Variable on_field : bool.
  Variable empty_set : VS.
  Variable bind_set : string -> option VS.
  Variable bind_field_set : string -> option FS.
  Variable parse_template : special -> string -> option TPL.

  (** What a coercion gives: the value, the stage it needs and the fields it needs. *)
  Definition coerced : Type := ev * stage * list FS.

  Definition builtin (n : string) : bool := existsb (String.eqb n) ["ID"; "String"; "Int"; "Float"; "Boolean"].

  (** [ingest_arbitrary_value], extension.rs:388-414 *)
  Fixpoint ingest (v : value) : ev :=
    match v with
    | VNull => ENull
    | VStr s => EStr s
    | VInt z => EI64 z
    | VFloat m e => EFloat m e
    | VBool b => EBool b
    | VEnum s => EEnum s
    | VList l => EList (map ingest l)
    | VObj fs => EMap (map (fun f => (fst f, ingest (snd f))) fs)
    end.

  (** [coerce_scalar_value], extension.rs:343-386 *)
  Definition coerce_scalar (n : string) (v : value) : option ev :=
    if String.eqb n "String" || String.eqb n "ID" then match v with VStr s => Some (EStr s) | _ => None end
    else if String.eqb n "Float" then
      match v with
      | VInt z => let (m, e) := f64_of_Z z in Some (EFloat m e)
      | VFloat m e => Some (EFloat m e)
      | _ => None
      end
    else if String.eqb n "Int" then
      match v with
      | VInt z => option_map EInt (i32_try_from z)
      | VFloat m e => if can_coerce_to_int m e then Some (EInt (f64_as_i32 m e)) else None
      | _ => None
      end
    else if String.eqb n "Boolean" then match v with VBool b => Some (EBool b) | _ => None end
    else Some (ingest v).

  (** The special scalars, extension.rs:177-217.  [coerce_input_value_set] off a field refuses everything
      but a default value, which gives the empty set (input_value_set.rs:24-34). *)
  Definition coerce_special (s : special) (is_default : bool) (v : value) : option coerced :=
    match v with
    | VStr text =>
      match s with
      | SInputValueSet =>
        if on_field then option_map (fun x => (EValueSet x, Query, [])) (bind_set text)
        else if is_default then Some (EValueSet empty_set, Query, []) else None
      | SFieldSet => option_map (fun x => (EFieldSet x, Response, [x])) (bind_field_set text)
      | SUrlTemplate | SJsonTemplate => option_map (fun x => (ETemplate x, Query, [])) (parse_template s text)
      end
    | _ => None
    end.

  Definition as_outcome (o : option coerced) : outcome coerced := match o with Some c => Val c | None => Refused end.

  Fixpoint position (k : string) (fs : list (string * value)) : option nat :=
    match fs with
    | [] => None
    | f :: fs => if String.eqb (fst f) k then Some 0 else option_map S (position k fs)
    end.

  (** [Vec::swap_remove] *)
  Definition swap_remove (i : nat) (fs : list (string * value)) : list (string * value) :=
    match skipn (S i) fs with
    | [] => firstn i fs
    | x :: l => firstn i fs ++ last (x :: l) x :: removelast (x :: l)
    end.

  Section Named.
    (** [coerce_named_type_value] for what is inside. *)
    Variable deeper : string -> value -> outcome coerced.

    (** The elements of a list, in order. *)
    Fixpoint each (f : value -> outcome coerced) (l : list value) : outcome (list ev * stage * list FS) :=
      match l with
      | [] => Val ([], Static, [])
      | v :: l =>
        andthen (f v) (fun '(e, s, r) =>
        andthen (each f l) (fun '(es, s', r') => Val (e :: es, stage_max s s', r ++ r')))
      end.

    (** [coerce_type_value], extension.rs:124-167 *)
    Fixpoint coerce_type (ws : list wrapper) (n : string) (v : value) : outcome coerced :=
      match ws with
      | [] => match v with VNull => Val (ENull, Static, []) | _ => deeper n v end
      | WNonNull :: ws => match v with VNull => Refused | _ => coerce_type ws n v end
      | WList :: ws =>
        match v with
        | VList l => andthen (each (coerce_type ws n) l) (fun '(es, s, r) => Val (EList es, s, r))
        | _ => Refused
        end
      end.

    Fixpoint wrap (n : nat) (e : ev) : ev := match n with O => e | S n => EList [wrap n e] end.

    (** [coerce_input_value], extension.rs:108-122 *)
    Definition coerce_input (t : type) (v : value) : outcome coerced :=
      match is_list t, v with
      | true, VNull | true, VList _ | false, _ => coerce_type (wrappers t) (named t) v
      | true, _ =>
        andthen (deeper (named t) v) (fun '(e, s, r) =>
        Val (wrap (List.length (filter is_list_wrapper (wrappers t))) e, s, r))
      end.

    (** The fields of an input object that is not a oneOf, extension.rs:279-305 *)
    Fixpoint coerce_fields (defs : list input) (fs : list (string * value)) : outcome (list (string * ev) * stage * list FS) :=
      match defs with
      | [] => match fs with [] => Val ([], Static, []) | _ :: _ => Refused end
      | d :: defs =>
        match position (iname d) fs with
        | Some i =>
          match nth_error fs i with
          | None => Refused
          | Some f =>
            andthen (coerce_input (ity d) (snd f)) (fun '(e, s, r) =>
            andthen (coerce_fields defs (swap_remove i fs)) (fun '(es, s', r') =>
            Val ((iname d, e) :: es, stage_max s s', r ++ r')))
          end
        | None =>
          match idefault d with
          | Some v =>
            andthen (coerce_input (ity d) v) (fun '(e, s, r) =>
            andthen (coerce_fields defs fs) (fun '(es, s', r') => Val ((iname d, e) :: es, stage_max s s', r ++ r')))
          | None => if is_non_null (ity d) then Refused else coerce_fields defs fs
          end
        end
      end.

    (** [coerce_input_objet_value], extension.rs:229-317 *)
    Definition coerce_object (one_of : bool) (defs : list input) (v : value) : outcome coerced :=
      match v with
      | VObj fs =>
        if one_of then
          match fs with
          | [f] =>
            match find (fun d => String.eqb (iname d) (fst f)) defs with
            | Some d => andthen (coerce_input (ity d) (snd f)) (fun '(e, s, r) => Val (EMap [(iname d, e)], s, r))
            | None => Refused
            end
          | _ => Refused
          end
        else andthen (coerce_fields defs fs) (fun '(es, s, r) => Val (EMap es, s, r))
      | _ => Refused
      end.
  End Named.

  (** [coerce_named_type_value], extension.rs:169-227.  The fuel bounds how deep input objects go. *)
  Fixpoint coerce_named (fuel : nat) (is_default : bool) (n : string) (v : value) : outcome coerced :=
    match fuel with
    | O => Overflow
    | S fuel =>
      if builtin n then as_outcome (option_map (fun e => (e, Static, [])) (coerce_scalar n v))
      else match find (fun s => String.eqb (fst s) n) specials with
      | Some (_, s) => as_outcome (coerce_special s is_default v)
      | None =>
        match definitions n with
        | None | Some DOutput => Refused
        | Some DScalarType => as_outcome (option_map (fun e => (e, Static, [])) (coerce_scalar n v))
        | Some (DEnumType values) =>
          match v with
          | VEnum s => if existsb (String.eqb s) values then Val (EEnum s, Static, []) else Refused
          | _ => Refused
          end
        | Some (DInput one_of defs) => coerce_object (coerce_named fuel is_default) one_of defs v
        end
      end
    end.

  (** [coerce_argument], extension.rs:86-106 *)
  Definition coerce_argument (fuel : nat) (d : input) (v : option value) : outcome (option coerced) :=
    match v, idefault d with
    | Some v, _ => andthen (coerce_input (coerce_named fuel false) (ity d) v) (fun c => Val (Some c))
    | None, Some v => andthen (coerce_input (coerce_named fuel true) (ity d) v) (fun c => Val (Some c))
    | None, None => if is_non_null (ity d) then Refused else Val None
    end.

  Record argument := { aname : string; avalue : ev; astage : stage }.

  Definition given_value (k : string) (args : list (string * value)) : option value * list (string * value) :=
    match position k args with
    | Some i => (option_map snd (nth_error args i), swap_remove i args)
    | None => (None, args)
    end.

  (** [coerce_extension_directive_arguments], extension.rs:38-82 *)
  Fixpoint coerce_arguments (fuel : nat) (defs : list input) (args : list (string * value)) : outcome (list argument * list FS) :=
    match defs with
    | [] => match args with [] => Val ([], []) | _ :: _ => Refused end
    | d :: defs =>
      let (v, args) := given_value (iname d) args in
      andthen (coerce_argument fuel d v) (fun c =>
      andthen (coerce_arguments fuel defs args) (fun '(l, r) =>
      Val match c with
          | Some (e, s, r') => ({| aname := iname d; avalue := e; astage := s |} :: l, r' ++ r)
          | None => (l, r)
          end))
    end.

  (** *** Views *)

  (** [serde_json::Value], as far as the views build it. *)
  Inductive data :=
  | NNull
  | NStr (s : string)
  | NInt (z : Z)
  | NFloat (m e : Z)
  | NBool (b : bool)
  | NList (l : list data)
  | NMap (fs : list (string * data)).

  (** The arguments of the field for an input value set, a template over them, and the requirements of an
      object of the response. *)
  Variable set_view : VS -> data.
  Variable template_view : TPL -> string.
  Variable fields_view : FS -> data.

  Definition sequence_opt {A} := fix go (l : list (option A)) : option (list A) :=
    match l with
    | [] => Some []
    | Some a :: l => option_map (cons a) (go l)
    | None :: _ => None
    end.

  (** [unreachable!] is [None].  The three views of a value: [ExtensionInputValueStaticView]
      (argument.rs:87-116), [ExtensionInputValueQueryView] (query.rs:30-71) and
      [ExtensionInputValueResponseObjectView] (response.rs:55-110).  They differ only in what they can
      inject: [upto]. *)
  Fixpoint view (upto : stage) (e : ev) : option data :=
    match e with
    | ENull => Some NNull
    | EStr s | EEnum s => Some (NStr s)
    | EInt z | EI64 z => Some (NInt z)
    | EFloat m e => Some (NFloat m e)
    | EBool b => Some (NBool b)
    | EMap fs => option_map NMap (sequence_opt (map (fun f => option_map (pair (fst f)) (view upto (snd f))) fs))
    | EList l => option_map NList (sequence_opt (map (view upto) l))
    | EFieldSet f => match upto with Response => Some (fields_view f) | _ => None end
    | EValueSet v => match upto with Static => None | _ => Some (set_view v) end
    | ETemplate t => match upto with Static => None | _ => Some (NStr (template_view t)) end
    end.

  Definition serialize (upto : stage) (args : list argument) : option (list (string * data)) :=
    sequence_opt (map (fun a => option_map (pair (aname a)) (view upto (avalue a))) args).

  (** argument.rs:69-85, query.rs:14-22, mod.rs:52-54 and response.rs:34-47 *)
  Definition static_arguments (args : list argument) : option (list (string * data)) :=
    serialize Static (filter (fun a => Nat.eqb (rank (astage a)) 0) args).
  Definition query_arguments (args : list argument) : option (list (string * data)) :=
    serialize Query (filter (fun a => Nat.leb (rank (astage a)) 1) args).
  Definition response_arguments (args : list argument) : option (list (string * data)) :=
    serialize Response (filter (fun a => Nat.eqb (rank (astage a)) 2) args).

  (** [max_arguments_stage], crates/engine/schema/src/extension/mod.rs:26-32 *)
  Definition max_stage (args : list argument) : stage := fold_left (fun s a => stage_max s (astage a)) args Static.

  (** *** Authorization *)

  Inductive site := OnField | OnParent | OnOutput.

  (** What is asked for a directive: with its static arguments, with those of the field, or with the
      response. *)
  Inductive rule := AskStatic | AskQuery | AskResponse.

  (** crates/engine/src/prepare/cached/builder/modifiers.rs:79-118,162-188,207-232; [None] is
      [unreachable!]. *)
  Definition rules (s : site) (args : list argument) : option (list rule) :=
    match max_stage args, s with
    | Static, _ => Some [AskStatic]
    | Query, OnField => Some [AskQuery]
    | Query, _ => None
    | Response, OnField =>
      Some [(if existsb (fun a => Nat.eqb (rank (astage a)) 1) args then AskQuery else AskStatic); AskResponse]
    | Response, _ => Some [AskStatic; AskResponse]
    end.

  (** The view that goes with a rule (crates/engine/src/prepare/operation_plan/query_modifications.rs:158-180,
      crates/engine/src/execution/operation/response_modifier.rs:43-64,152-170). *)
  Definition asked (args : list argument) (r : rule) : option (list (string * data)) :=
    match r with
    | AskStatic => static_arguments args
    | AskQuery => query_arguments args
    | AskResponse => response_arguments args
    end.

  (** *** Resolvers *)

  Inductive resolver := FieldResolver | SubscriptionResolver | NewResolver.

  (** crates/engine/src/resolver/extension/field/query_or_mutation.rs:39-50,
      field/subscription.rs:36-37 and crates/engine/src/resolver/extension/mod.rs:43-52: what a resolver's
      directive is given. *)
  Definition resolver_rules (r : resolver) : list rule :=
    match r with
    | FieldResolver => [AskQuery; AskResponse]
    | SubscriptionResolver => [AskQuery]
    | NewResolver => [AskStatic]
    end.
End Extension.

Arguments ENull {VS FS TPL}. Arguments EStr {VS FS TPL} s. Arguments EEnum {VS FS TPL} s.
Arguments EInt {VS FS TPL} z. Arguments EI64 {VS FS TPL} z. Arguments EFloat {VS FS TPL} m e.
Arguments EBool {VS FS TPL} b. Arguments EMap {VS FS TPL} fs. Arguments EList {VS FS TPL} l.
Arguments EFieldSet {VS FS TPL} f. Arguments EValueSet {VS FS TPL} v. Arguments ETemplate {VS FS TPL} t.
Arguments Build_argument {VS FS TPL}. Arguments aname {VS FS TPL}. Arguments avalue {VS FS TPL}. Arguments astage {VS FS TPL}.
Arguments ingest {VS FS TPL} v. Arguments coerce_scalar {VS FS TPL} n v. Arguments wrap {VS FS TPL} n e.
Arguments each {VS FS TPL} f l. Arguments coerce_type {VS FS TPL} deeper ws n v.
Arguments coerce_input {VS FS TPL} deeper t v. Arguments coerce_fields {VS FS TPL} deeper defs fs.
Arguments coerce_object {VS FS TPL} deeper one_of defs v. Arguments as_outcome {VS FS TPL} o.
Arguments coerce_special {VS FS TPL} on_field empty_set bind_set bind_field_set parse_template s is_default v.
Arguments coerce_named {VS FS TPL} specials definitions on_field empty_set bind_set bind_field_set parse_template fuel is_default n v.
Arguments coerce_argument {VS FS TPL} specials definitions on_field empty_set bind_set bind_field_set parse_template fuel d v.
Arguments coerce_arguments {VS FS TPL} specials definitions on_field empty_set bind_set bind_field_set parse_template fuel defs args.
Arguments view {VS FS TPL} set_view template_view fields_view upto e.
Arguments serialize {VS FS TPL} set_view template_view fields_view upto args.
Arguments static_arguments {VS FS TPL} set_view template_view fields_view args.
Arguments query_arguments {VS FS TPL} set_view template_view fields_view args.
Arguments response_arguments {VS FS TPL} set_view template_view fields_view args.
Arguments max_stage {VS FS TPL} args. Arguments rules {VS FS TPL} s args.
Arguments asked {VS FS TPL} set_view template_view fields_view args r.
