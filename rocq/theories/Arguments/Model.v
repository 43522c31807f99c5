(** Model of how the argument values written in an operation are checked, and of what is sent for
    them once the request's variables are known.
    Source: crates/engine/operation/src/bind/coercion/query.rs (literals),
    crates/engine/operation/src/bind/operation.rs (arguments, @skip/@include, variable definitions),
    crates/engine/operation/src/bind/mod.rs (variables of the request),
    crates/engine/operation/src/model/input_value (values and their serialization),
    crates/engine/src/prepare/cached/query_plan/field/arguments.rs (arguments of a field).
    Simplifications: values form a tree instead of living in the arenas of [QueryInputValues] and
    [SchemaInputValues]; an [InputValueDefinitionId] is replaced by the definition, an [EnumValueId]
    by its name; error payloads (messages, paths, locations) are dropped; the pool of field buffers
    is dropped; floats are finite. *)
From Coq Require Import ZArith String List Bool.
From Verif.Wrapping Require Model.
From Verif.Wrapping Require Import Spec.
From Verif.Coercion Require Import Json Model Binding.
Import ListNotations.
Local Open Scope list_scope.
Local Open Scope Z_scope.

(** Literals: [cynic_parser::Value] (a [ConstValue] is one without variables). *)
Inductive lit :=
| LNull
| LInt (z : Z)
| LFloat (m e : Z)
| LStr (s : string)
| LBool (b : bool)
| LEnum (s : string)
| LList (l : list lit)
| LObj (fs : list (string * lit))
| LVar (x : string).

(** SchemaInputValueRecord (engine/schema/src/input_value/mod.rs:108-135): default values. *)
Inductive sval :=
| SvNull
| SvStr (s : string)
| SvEnum (s : string)
| SvUnbound (s : string)
| SvInt (z : Z)
| SvI64 (z : Z)
| SvFloat (m e : Z)
| SvBool (b : bool)
| SvObj (fs : list (string * sval))
| SvList (l : list sval)
| SvMap (fs : list (string * sval)).

(** InputValueDefinitionRecord: an argument or a field of an input object.  [a_type] is its
    TypeDefinitionId. *)
Record adef := {
  a_name : string;
  a_inaccessible : bool;
  a_type : nat;
  a_wrapping : W.wrapping;
  a_default : option sval }.
(** The schema: what each type definition is, and the input objects ([DObj id] refers to them). *)
Record gschema := {
  types : nat -> tydef;
  objects : nat -> option (bool * list adef) }.

(** QueryInputValueRecord (engine/operation/src/model/input_value/query/mod.rs:91-118).
    [U64] and [UnboundEnumValue] are never built by the coercion and left out.  The flag of [QVar]
    stands for the write to [one_of_input_field_usage_record] (query.rs:275-280). *)
Inductive qval :=
| QNull
| QStr (s : string)
| QEnum (s : string)
| QInt (z : Z)
| QFloat (m e : Z)
| QBool (b : bool)
| QObj (fs : list (adef * qval))
| QList (l : list qval)
| QMap (fs : list (string * qval))
| QI64 (z : Z)
| QDefault (s : sval)
| QVar (id : nat) (one_of : bool).

(** VariableDefinitionRecord *)
Record vdef := { v_name : string; v_type : nat; v_wrapping : W.wrapping; v_default : option qval }.

(** query.rs:434-449.  Only input types reach it, which are never composite. *)
Definition are_type_compatibles (vt : nat) (vw : W.wrapping) (ut : nat) (uw : W.wrapping) : bool :=
  Nat.eqb vt ut &&
  (W.is_equal_or_more_lenient_than uw vw ||
   (negb (W.is_list vw) && (negb (W.is_non_null uw) || W.is_non_null vw))).

Fixpoint position (x : string) (vars : list vdef) (i : nat) : option (nat * vdef) :=
  match vars with
  | [] => None
  | v :: vars' => if String.eqb (v_name v) x then Some (i, v) else position x vars' (S i)
  end.

Definition l_is_list (v : lit) : bool := match v with LList _ => true | _ => false end.
Definition l_is_null (v : lit) : bool := match v with LNull => true | _ => false end.
Definition l_is_var (v : lit) : bool := match v with LVar _ => true | _ => false end.

Section Coerce.
Variable sch : gschema.
Variable vars : list vdef.
(** [is_variable_default_value] *)
Variable is_default : bool.

(** query.rs:86-121 *)
Definition variable_ref (x : string) (t : nat) (w : W.wrapping) (one_of : bool) : result qval :=
  if is_default then Err
  else match position x vars 0 with
       | None => Err
       | Some (id, v) => if are_type_compatibles (v_type v) (v_wrapping v) t w then Ok (QVar id one_of) else Err
       end.

(** query.rs:363-393, the arm for custom scalars.  A variable (or an enum value) reaches the last
    case, which converts the value to a [ValueKind]; that is [unreachable!()] for a variable
    (error.rs:163). *)
Fixpoint coerce_custom (v : lit) : result qval :=
  match v with
  | LNull => Ok QNull
  | LFloat m e => Ok (QFloat m e)
  | LInt z => Ok (QI64 z)
  | LStr s => Ok (QStr s)
  | LBool b => Ok (QBool b)
  | LList l => bind (sequence (map coerce_custom l)) (fun l' => Ok (QList l'))
  | LObj fs => bind (sequence (map (fun kv => bind (coerce_custom (snd kv)) (fun q => Ok (fst kv, q))) fs))
                    (fun fs' => Ok (QMap fs'))
  | LEnum _ => Err
  | LVar _ => Panic
  end.
(** query.rs:357-428 *)
Definition coerce_scalar (t : nat) (s : scalar_type) (v : lit) : result qval :=
  match s, v with
  | SUnknown, _ => coerce_custom v
  | SInt, LInt z => match i32_try_from z with Some z => Ok (QInt z) | None => Err end
  | SFloat, LInt z => let (m, e) := f64_of_Z z in Ok (QFloat m e)
  | SFloat, LFloat m e => Ok (QFloat m e)
  | SInt, LFloat m e => if can_coerce_to_int m e then Ok (QInt (f64_as_i32 m e)) else Err
  | SString, LStr s => Ok (QStr s)
  | SBoolean, LBool b => Ok (QBool b)
  | _, LVar x => variable_ref x t W.new false
  | _, _ => Err
  end.
(** query.rs:326-355 *)
Definition coerce_enum (values : list (string * bool)) (v : lit) : result qval :=
  match v with
  | LEnum name => match find_value_by_name name values 0 with
                  | Some (_, false) => Ok (QEnum name)
                  | _ => Err
                  end
  | LVar _ => Panic
  | _ => Err
  end.

(** A literal object being consumed: each remaining key with its value and the value's coercion. *)
Definition coercer := nat -> W.wrapping -> result qval.
Definition entry := (string * (lit * coercer))%type.
(** [position] then [swap_remove] (query.rs:293-294).  The order of what is left only matters to
    which unknown field is named by the error. *)
Fixpoint take (name : string) (fs : list entry) : option (coercer * list entry) :=
  match fs with
  | [] => None
  | (k, (v, c)) :: fs' => if String.eqb k name then Some (c, fs')
                          else match take name fs' with Some (c', r) => Some (c', (k, (v, c)) :: r) | None => None end
  end.
(** query.rs:267-270 *)
Fixpoint find_field (name : string) (ifs : list adef) : option adef :=
  match ifs with
  | [] => None
  | f :: ifs' => if negb (a_inaccessible f) && String.eqb (a_name f) name then Some f else find_field name ifs'
  end.
(** query.rs:288-309 *)
Fixpoint consume (ifs : list adef) (fs : list entry) : result (list (adef * qval) * list entry) :=
  match ifs with
  | [] => Ok ([], fs)
  | f :: ifs' =>
      if a_inaccessible f then consume ifs' fs
      else match take (a_name f) fs with
           | Some (c, fs') =>
               bind (c (a_type f) (a_wrapping f)) (fun q =>
               bind (consume ifs' fs') (fun '(buf, rest) => Ok ((f, q) :: buf, rest)))
           | None =>
               match a_default f with
               | Some d => bind (consume ifs' fs) (fun '(buf, rest) => Ok ((f, QDefault d) :: buf, rest))
               | None => if W.is_non_null (a_wrapping f) then Err else consume ifs' fs
               end
           end
  end.
(** query.rs:221-324 *)
Definition coerce_object (one_of : bool) (ifs : list adef) (fs : list entry) : result qval :=
  let finish '(buf, rest) := match rest with [] => Ok (QObj buf) | _ :: _ => Err end in
  if one_of then
    match fs with
    | [(name, (v, c))] =>
        match find_field name ifs with
        | Some f =>
            bind (match v with
                  | LVar x => variable_ref x (a_type f) (a_wrapping f) true
                  | _ => c (a_type f) (a_wrapping f)
                  end)
                 (fun q => finish ([(f, q)], []))
        | None => finish ([], fs)
        end
    | _ => Err
    end
  else bind (consume ifs fs) finish.

Fixpoint nest (n : nat) (q : qval) : qval := match n with O => q | S n => nest n (QList [q]) end.

(** query.rs:123-138, given the coercions of the same value against a named type and a full type. *)
Definition input_value (v : lit) (named : nat -> result qval) (typ : coercer) : coercer := fun t w =>
  if W.is_list w && negb (l_is_list v) && negb (l_is_null v) && negb (l_is_var v) then
    bind (named t) (fun q => Ok (nest (List.length (W.list_wrappings w)) q))
  else typ t w.

(** query.rs:140-219 — [coerce_named_type] (first component) and [coerce_type] (second component). *)
Fixpoint coerce (v : lit) : (nat -> result qval) * coercer :=
  let named (t : nat) : result qval :=
    match types sch t with
    | DScalar s => coerce_scalar t s v
    | DEnum vs => coerce_enum vs v
    | DObj id =>
        match objects sch id with
        | None => Panic
        | Some (one_of, ifs) =>
            match v with
            | LObj fs => coerce_object one_of ifs
                (map (fun kv => (fst kv, (snd kv, let c := coerce (snd kv) in input_value (snd kv) (fst c) (snd c)))) fs)
            | LVar _ => Panic
            | _ => Err
            end
        end
    end in
  let typ (t : nat) (w : W.wrapping) : result qval :=
    match v with
    | LVar x => variable_ref x t w false
    | _ =>
        match W.pop_outermost_list_wrapping w with
        | None => Panic
        | Some (w', None) =>
            if l_is_null v then (if W.is_non_null w' then Err else Ok QNull) else named t
        | Some (w', Some lw) =>
            match v with
            | LNull => match lw with W.LListNonNull => Err | W.LList => Ok QNull end
            | LList l => bind (sequence (map (fun x => snd (coerce x) t w') l)) (fun l' => Ok (QList l'))
            | _ => Err
            end
        end
    end in
  (named, typ).

(** query.rs:38-57 (and 17-36): a failure becomes an error and the value null. *)
Definition coerce_query_value (t : nat) (w : W.wrapping) (v : lit) : result qval :=
  input_value v (fst (coerce v)) (snd (coerce v)) t w.

(** operation.rs:169-231.  The boolean says whether errors were pushed; only a panic stops. *)
Fixpoint take_arg (name : string) (args : list (string * lit)) : option (lit * list (string * lit)) :=
  match args with
  | [] => None
  | (k, v) :: args' => if String.eqb k name then Some (v, args')
                       else match take_arg name args' with Some (v', r) => Some (v', (k, v) :: r) | None => None end
  end.
Fixpoint bind_arguments (defs : list adef) (args : list (string * lit)) : result (list (adef * qval) * bool) :=
  match defs with
  | [] => Ok ([], match args with [] => false | _ :: _ => true end)
  | f :: defs' =>
      if a_inaccessible f then bind_arguments defs' args
      else match take_arg (a_name f) args with
           | Some (v, args') =>
               match coerce_query_value (a_type f) (a_wrapping f) v with
               | Panic => Panic
               | Ok q => bind (bind_arguments defs' args') (fun '(out, err) => Ok ((f, q) :: out, err))
               | Err => bind (bind_arguments defs' args') (fun '(out, err) => Ok ((f, QNull) :: out, true))
               end
           | None =>
               match a_default f with
               | Some d => bind (bind_arguments defs' args) (fun '(out, err) => Ok ((f, QDefault d) :: out, err))
               | None => if W.is_non_null (a_wrapping f)
                         then bind (bind_arguments defs' args) (fun '(out, err) => Ok (out, true))
                         else bind_arguments defs' args
               end
           end
  end.
(** operation.rs:354-389 — @skip and @include: the first argument, whatever its name, as Boolean!. *)
Definition bind_condition (boolean : nat) (args : list (string * lit)) : result (option qval * bool) :=
  match args with
  | [] => Ok (None, true)
  | (_, v) :: _ =>
      match coerce_query_value boolean (W.non_null W.new) v with
      | Panic => Panic
      | Ok q => Ok (Some q, false)
      | Err => Ok (Some QNull, true)
      end
  end.
End Coerce.

(** A variable definition as parsed: [p_type] is [None] when its type is unknown or an output type. *)
Record pvar := { p_name : string; p_type : option nat; p_ty : ty; p_default : option lit }.

(** operation.rs:391-447.  A repeated name is fatal; the type of a variable with a default that
    isn't null is made required (see [variable_wrapping]). *)
Fixpoint bind_variable_definitions (sch : gschema) (ps : list pvar) (seen : list string) : result (list vdef * bool) :=
  match ps with
  | [] => Ok ([], false)
  | p :: ps' =>
      if existsb (String.eqb (p_name p)) seen then Err
      else
        let seen' := p_name p :: seen in
        match p_type p with
        | None => bind (bind_variable_definitions sch ps' seen') (fun '(out, _) => Ok (out, true))
        | Some t =>
            match variable_wrapping (p_ty p) (option_map (fun v => negb (l_is_null v)) (p_default p)) with
            | None => Panic
            | Some w =>
                let mk d := {| v_name := p_name p; v_type := t; v_wrapping := w; v_default := d |} in
                match p_default p with
                | None => bind (bind_variable_definitions sch ps' seen') (fun '(out, err) => Ok (mk None :: out, err))
                | Some v =>
                    match coerce_query_value sch [] true t w v with
                    | Panic => Panic
                    | Ok q => bind (bind_variable_definitions sch ps' seen') (fun '(out, err) => Ok (mk (Some q) :: out, err))
                    | Err => bind (bind_variable_definitions sch ps' seen') (fun '(out, _) => Ok (mk (Some QNull) :: out, true))
                    end
                end
            end
        end
  end.

(** The places of an operation where values are written, in the order they are bound (fragments
    where they are first spread).  Selection sets themselves are not modelled. *)
Inductive site :=
| SField (defs : list adef) (args : list (string * lit))
| SCondition (args : list (string * lit)).
Inductive bound :=
| BField (args : list (adef * qval))
| BCondition (q : option qval).
Fixpoint bind_sites (sch : gschema) (vars : list vdef) (boolean : nat) (sites : list site) : result (list bound * bool) :=
  match sites with
  | [] => Ok ([], false)
  | SField defs args :: sites' =>
      bind (bind_arguments sch vars false defs args) (fun '(a, e) =>
      bind (bind_sites sch vars boolean sites') (fun '(out, e') => Ok (BField a :: out, e || e')))
  | SCondition args :: sites' =>
      bind (bind_condition sch vars false boolean args) (fun '(c, e) =>
      bind (bind_sites sch vars boolean sites') (fun '(out, e') => Ok (BCondition c :: out, e || e')))
  end.

(** The variables a value refers to: [variable_definition_in_use] (query.rs:118), with the flag of
    references from a field of a @oneOf object. *)
Fixpoint uses (q : qval) : list (nat * bool) :=
  match q with
  | QVar id o => [(id, o)]
  | QObj fs => flat_map (fun fq => uses (snd fq)) fs
  | QList l => flat_map uses l
  | QMap fs => flat_map (fun kq => uses (snd kq)) fs
  | _ => []
  end.
Definition bound_uses (b : bound) : list (nat * bool) :=
  match b with
  | BField args => flat_map (fun fq => uses (snd fq)) args
  | BCondition (Some q) => uses q
  | BCondition None => []
  end.
Definition in_use (us : list (nat * bool)) (i : nat) : bool := existsb (fun u => Nat.eqb (fst u) i) us.
Definition one_of_use (us : list (nat * bool)) (i : nat) : bool := existsb (fun u => Nat.eqb (fst u) i && snd u) us.

(** operation.rs:22-43 and mod.rs:71-110, restricted to values: [Err] when the operation is refused. *)
Definition bind_operation (sch : gschema) (boolean : nat) (ps : list pvar) (sites : list site)
  : result (list vdef * list bound) :=
  bind (bind_variable_definitions sch ps []) (fun '(vars, e1) =>
  bind (bind_sites sch vars boolean sites) (fun '(out, e2) =>
  if e1 || e2 then Err
  else if forallb (in_use (flat_map bound_uses out)) (seq 0 (List.length vars)) then Ok (vars, out) else Err)).

(** ** The variables of a request *)
Definition erase_field (sch : gschema) (f : adef) : input_field :=
  {| f_name := a_name f; f_inaccessible := a_inaccessible f; f_def := types sch (a_type f);
     f_wrapping := a_wrapping f; f_has_default := match a_default f with Some _ => true | None => false end |}.
Definition erase (sch : gschema) : schema := fun id =>
  option_map (fun o => {| is_one_of := fst o; input_fields := map (erase_field sch) (snd o) |}) (objects sch id).

(** VariableValueRecord *)
Inductive vvalue := VUndefined | VProvided (c : cval) | VDefault (q : qval).
Fixpoint lookup {A} (x : string) (l : list (string * A)) : option A :=
  match l with [] => None | (k, v) :: l' => if String.eqb k x then Some v else lookup x l' end.
(** bind/mod.rs:125-168, one definition: [None] when an error is pushed. *)
Definition bind_variable (sch : gschema) (one_of : bool) (v : vdef) (request : list (string * json)) : result (option vvalue) :=
  match lookup (v_name v) request with
  | Some j =>
      match coerce_variable (erase sch) (types sch (v_type v)) (v_wrapping v) j with
      | Panic => Panic
      | Err => Ok None
      | Ok c => Ok (if one_of && is_null j then None else Some (VProvided c))
      end
  | None =>
      Ok (match v_default v with
          | Some q => Some (VDefault q)
          | None => if W.is_non_null (v_wrapping v) then None else if one_of then None else Some VUndefined
          end)
  end.
Fixpoint bind_each (sch : gschema) (us : list (nat * bool)) (i : nat) (vars : list vdef) (request : list (string * json))
  : result (list (option vvalue)) :=
  match vars with
  | [] => Ok []
  | v :: vars' => bind (bind_variable sch (one_of_use us i) v request) (fun x =>
                  bind (bind_each sch us (S i) vars' request) (fun xs => Ok (x :: xs)))
  end.
Fixpoint all_some {A} (l : list (option A)) : option (list A) :=
  match l with
  | [] => Some []
  | Some x :: l' => match all_some l' with Some xs => Some (x :: xs) | None => None end
  | None :: _ => None
  end.
(** bind/mod.rs:113-175 *)
Definition bind_variables (sch : gschema) (vars : list vdef) (out : list bound) (request : list (string * json)) : result (list vvalue) :=
  bind (bind_each sch (flat_map bound_uses out) 0 vars request) (fun xs =>
  match all_some xs with Some vs => Ok vs | None => Err end).

(** ** Serialization *)
Definition jint (z : Z) : json := JNum (if 0 <=? z then PosInt z else NegInt z).
(** engine/schema/src/input_value/walker/ser.rs *)
Fixpoint ser_sval (s : sval) : json :=
  match s with
  | SvNull => JNull
  | SvStr s | SvEnum s | SvUnbound s => JStr s
  | SvInt z | SvI64 z => jint z
  | SvFloat m e => JNum (Flt m e)
  | SvBool b => JBool b
  | SvObj fs | SvMap fs => JObj (map (fun ks => (fst ks, ser_sval (snd ks))) fs)
  | SvList l => JArr (map ser_sval l)
  end.
(** model/input_value/variable/walker/ser.rs:21-48.  The type only serves to read the names of enum
    values and of fields, which the code reads through ids. *)
Fixpoint ser_cval (sch : gschema) (d : tydef) (c : cval) : json :=
  match c with
  | CNull => JNull
  | CInt z | CI64 z | CU64 z => jint z
  | CFloat m e => JNum (Flt m e)
  | CStr s => JStr s
  | CBool b => JBool b
  | CEnum i => match d with
               | DEnum vs => match nth_error vs i with Some (n, _) => JStr n | None => JNull end
               | _ => JNull
               end
  | CList l => JArr (map (ser_cval sch d) l)
  | CMap fs => JObj (map (fun kc => (fst kc, ser_cval sch (DScalar SUnknown) (snd kc))) fs)
  | CObj fs =>
      match d with
      | DObj id =>
          match objects sch id with
          | Some (_, ifs) =>
              JObj (flat_map (fun ic =>
                match nth_error ifs (fst ic) with
                | Some f => [(a_name f,
                    match snd ic with
                    | CDefault _ => match a_default f with Some s => ser_sval s | None => JNull end
                    | _ => ser_cval sch (types sch (a_type f)) (snd ic)
                    end)]
                | None => []
                end) fs)
          | None => JNull
          end
      | _ => JNull
      end
  | CDefault _ => JNull
  end.

(** model/input_value/query/walker/ser.rs:8-41.  [env] gives the JSON of a variable, [None] when it
    is undefined; an undefined variable in a field of an input object is replaced by the field's
    default or the field left out, elsewhere it is null. *)
Section Ser.
Variable env : nat -> option json.
Definition or_default (f : adef) : list (string * json) :=
  match a_default f with Some s => [(a_name f, ser_sval s)] | None => [] end.
Fixpoint ser_q (q : qval) : json :=
  match q with
  | QNull => JNull
  | QStr s | QEnum s => JStr s
  | QInt z | QI64 z => jint z
  | QFloat m e => JNum (Flt m e)
  | QBool b => JBool b
  | QObj fs => JObj (flat_map (fun fq =>
      match snd fq with
      | QVar id _ => match env id with Some j => [(a_name (fst fq), j)] | None => or_default (fst fq) end
      | _ => [(a_name (fst fq), ser_q (snd fq))]
      end) fs)
  | QList l => JArr (map ser_q l)
  | QMap fs => JObj (map (fun kq => (fst kq, ser_q (snd kq))) fs)
  | QDefault s => ser_sval s
  | QVar id _ => match env id with Some j => j | None => JNull end
  end.
(** prepare/cached/query_plan/field/arguments.rs:154-168, 186-200, 237-252 (values, no injections) *)
Definition ser_arguments (args : list (adef * qval)) : list (string * json) :=
  flat_map (fun fq =>
    match snd fq with
    | QVar id _ => match env id with Some j => [(a_name (fst fq), j)] | None => or_default (fst fq) end
    | _ => [(a_name (fst fq), ser_q (snd fq))]
    end) args.
End Ser.

(** model/input_value/variable/walker/{mod,ser}.rs: the JSON of a variable. *)
Definition environment (sch : gschema) (vars : list vdef) (vs : list vvalue) (id : nat) : option json :=
  match nth_error vars id, nth_error vs id with
  | Some v, Some (VProvided c) => Some (ser_cval sch (types sch (v_type v)) c)
  | Some v, Some (VDefault q) => Some (ser_q (fun _ => None) q)
  | _, _ => None
  end.

(** From the operation and the request to the arguments each field is executed with. *)
Definition arguments_sent (sch : gschema) (boolean : nat) (ps : list pvar) (sites : list site) (request : list (string * json))
  : result (list (list (string * json))) :=
  bind (bind_operation sch boolean ps sites) (fun '(vars, out) =>
  bind (bind_variables sch vars out request) (fun vs =>
  Ok (flat_map (fun b => match b with BField args => [ser_arguments (environment sch vars vs) args] | BCondition _ => [] end) out))).
