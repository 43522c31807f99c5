(** Model of the coercion of request variables.
    Source: crates/engine/operation/src/bind/coercion/variable.rs.
    Simplifications: values form a tree instead of living in the arenas of [VariableInputValues];
    error payloads (paths, messages) are dropped; the pool of field buffers is dropped. *)
From Coq Require Import ZArith List String Bool.
From Verif.Wrapping Require Model.
From Verif.Coercion Require Import Json.
Import ListNotations.
Local Open Scope Z_scope.

Module W := Verif.Wrapping.Model.

Inductive result (A : Type) := Ok (a : A) | Err | Panic.
Arguments Ok {A} a. Arguments Err {A}. Arguments Panic {A}.
Definition bind {A B} (r : result A) (f : A -> result B) : result B :=
  match r with Ok a => f a | Err => Err | Panic => Panic end.
Fixpoint sequence {A} (l : list (result A)) : result (list A) :=
  match l with
  | [] => Ok []
  | r :: l' => bind r (fun a => bind (sequence l') (fun l'' => Ok (a :: l'')))
  end.

(** engine/schema/src/lib.rs:302-310 *)
Inductive scalar_type := SString | SFloat | SInt | SBoolean | SUnknown.

(** Input definitions.  [DObj id] refers to the schema's table of input objects, so types may be
    recursive.  Enum values carry their name and whether they are @inaccessible. *)
Inductive tydef :=
| DScalar (s : scalar_type)
| DEnum (values : list (string * bool))
| DObj (id : nat).

Record input_field := {
  f_name : string;
  f_inaccessible : bool;
  f_def : tydef;
  f_wrapping : W.wrapping;
  f_has_default : bool }.
Record input_object := { is_one_of : bool; input_fields : list input_field }.
Definition schema := nat -> option input_object.

(** VariableInputValueRecord (engine/operation/src/model/input_value/variable/mod.rs). [CDefault i]
    is [DefaultValue] of the [i]-th field of the input object. *)
Inductive cval :=
| CNull
| CInt (z : Z)
| CFloat (m e : Z)
| CI64 (z : Z)
| CU64 (z : Z)
| CStr (s : string)
| CBool (b : bool)
| CEnum (index : nat)
| CList (l : list cval)
| CObj (fields : list (nat * cval))
| CMap (fields : list (string * cval))
| CDefault (field : nat).

(** Rust's [as f64] on an integer: round to nearest, ties to even, on 53 bits. *)
Definition f64_of_Z (z : Z) : Z * Z :=
  let a := Z.abs z in
  if a <? 2 ^ 53 then (z, 0)
  else
    let sh := Z.log2 a - 52 in
    let q := a / 2 ^ sh in
    let r := a mod 2 ^ sh in
    let half := 2 ^ (sh - 1) in
    let q' := if (half <? r) || ((r =? half) && Z.odd q) then q + 1 else q in
    (Z.sgn z * q', sh).

(** serde_json Number accessors. *)
Definition is_f64 (n : number) : bool := match n with Flt _ _ => true | _ => false end.
Definition as_f64 (n : number) : option (Z * Z) :=
  match n with PosInt n => Some (f64_of_Z n) | NegInt z => Some (f64_of_Z z) | Flt m e => Some (m, e) end.
Definition as_i64 (n : number) : option Z :=
  match n with
  | PosInt n => if n <=? 9223372036854775807 then Some n else None
  | NegInt z => Some z
  | Flt _ _ => None
  end.
Definition as_u64 (n : number) : option Z := match n with PosInt n => Some n | _ => None end.
Definition i32_try_from (z : Z) : option Z :=
  if (-2147483648 <=? z) && (z <=? 2147483647) then Some z else None.

(** f64 operations on [m * 2^e]: floor (exact), comparison with an integer, saturating [as i32]. *)
Definition f64_floor (m e : Z) : Z := if 0 <=? e then m * 2 ^ e else m / 2 ^ (- e).
Definition f64_is_floor (m e : Z) : bool := if 0 <=? e then true else m mod 2 ^ (- e) =? 0.
Definition f64_lt_Z (m e k : Z) : bool := if 0 <=? e then m * 2 ^ e <? k else m <? k * 2 ^ (- e).
Definition f64_trunc (m e : Z) : Z := if 0 <=? e then m * 2 ^ e else Z.quot m (2 ^ (- e)).
Definition f64_as_i32 (m e : Z) : Z := Z.max (-2147483648) (Z.min 2147483647 (f64_trunc m e)).

(** variable.rs:327-329 *)
Definition can_coerce_to_int (m e : Z) : bool := f64_is_floor m e && f64_lt_Z m e 2147483647.

(** variable.rs:289-303 — the two Int arms for numbers. *)
Definition coerce_int (n : number) : result cval :=
  match n with
  | Flt m e => if can_coerce_to_int m e then Ok (CInt (f64_as_i32 m e))
               else match as_i64 n with Some _ => Panic | None => Err end
  | _ => match as_i64 n with
         | Some z => match i32_try_from z with Some z => Ok (CInt z) | None => Err end
         | None => Err
         end
  end.

(** variable.rs:256-264 — numbers for a custom scalar: [as_f64] is tried first. *)
Definition coerce_unknown_number (n : number) : result cval :=
  match as_f64 n with
  | Some (m, e) => Ok (CFloat m e)
  | None => match as_i64 n with
            | Some z => Ok (CI64 z)
            | None => match as_u64 n with Some z => Ok (CU64 z) | None => Panic end
            end
  end.

(** variable.rs:254-286 — arbitrary JSON for a custom scalar. *)
Fixpoint coerce_unknown (v : json) : result cval :=
  match v with
  | JNull => Ok CNull
  | JNum n => coerce_unknown_number n
  | JStr s => Ok (CStr s)
  | JBool b => Ok (CBool b)
  | JArr l => bind (sequence (map coerce_unknown l)) (fun l' => Ok (CList l'))
  | JObj fs => bind (sequence (map (fun kv => bind (coerce_unknown (snd kv)) (fun c => Ok (fst kv, c))) fs))
                    (fun fs' => Ok (CMap fs'))
  end.

(** variable.rs:249-320 *)
Definition coerce_scalar (s : scalar_type) (v : json) : result cval :=
  match s, v with
  | SUnknown, _ => coerce_unknown v
  | SInt, JNum n => coerce_int n
  | SFloat, JNum n => match as_f64 n with Some (m, e) => Ok (CFloat m e) | None => Err end
  | SString, JStr s => Ok (CStr s)
  | SBoolean, JBool b => Ok (CBool b)
  | _, _ => Err
  end.

(** enum_def.rs:4-6 + variable.rs:236: the first value with that name, then the filter. *)
Fixpoint find_value_by_name (name : string) (values : list (string * bool)) (i : nat) : option (nat * bool) :=
  match values with
  | [] => None
  | (n, inaccessible) :: vs => if String.eqb n name then Some (i, inaccessible) else find_value_by_name name vs (S i)
  end.
(** variable.rs:220-247 *)
Definition coerce_enum (values : list (string * bool)) (v : json) : result cval :=
  match v with
  | JStr name => match find_value_by_name name values 0 with
                 | Some (i, false) => Ok (CEnum i)
                 | _ => Err
                 end
  | _ => Err
  end.

(** A JSON object being consumed: each remaining key with its value's coercion function. *)
Definition coercer := tydef -> W.wrapping -> result cval.
Fixpoint swap_remove (name : string) (fs : list (string * coercer)) : option (coercer * list (string * coercer)) :=
  match fs with
  | [] => None
  | (k, c) :: fs' => if String.eqb k name then Some (c, fs')
                     else match swap_remove name fs' with Some (c', r) => Some (c', (k, c) :: r) | None => None end
  end.

(** variable.rs:174-187 — oneOf. *)
Fixpoint find_input_field (name : string) (ifs : list input_field) (i : nat) : option (nat * input_field) :=
  match ifs with
  | [] => None
  | f :: ifs' => if negb (f_inaccessible f) && String.eqb (f_name f) name then Some (i, f)
                 else find_input_field name ifs' (S i)
  end.
(** variable.rs:188-214 — regular input objects: returns the buffer and what is left of the object. *)
Fixpoint consume_fields (ifs : list input_field) (i : nat) (fs : list (string * coercer))
  : result (list (nat * cval) * list (string * coercer)) :=
  match ifs with
  | [] => Ok ([], fs)
  | f :: ifs' =>
      if f_inaccessible f then consume_fields ifs' (S i) fs
      else match swap_remove (f_name f) fs with
           | None =>
               if f_has_default f then
                 bind (consume_fields ifs' (S i) fs) (fun '(buf, rest) => Ok ((i, CDefault i) :: buf, rest))
               else if W.is_non_null (f_wrapping f) then Err
               else consume_fields ifs' (S i) fs
           | Some (c, fs') =>
               bind (c (f_def f) (f_wrapping f)) (fun v =>
               bind (consume_fields ifs' (S i) fs') (fun '(buf, rest) => Ok ((i, v) :: buf, rest)))
           end
  end.
(** variable.rs:131-218 *)
Definition coerce_fields (o : input_object) (fs : list (string * coercer)) : result cval :=
  let finish '(buf, rest) :=
    match rest with [] => Ok (CObj buf) | _ :: _ => Err end in
  if is_one_of o then
    match fs with
    | [(name, c)] =>
        match find_input_field name (input_fields o) 0 with
        | Some (i, f) => bind (c (f_def f) (f_wrapping f)) (fun v => finish ([(i, v)], []))
        | None => finish ([], fs)
        end
    | _ => Err
    end
  else bind (consume_fields (input_fields o) 0 fs) finish.

Fixpoint iter_list (n : nat) (v : cval) : cval :=
  match n with O => v | S n => iter_list n (CList [v]) end.
Definition is_array (v : json) : bool := match v with JArr _ => true | _ => false end.
Definition is_null (v : json) : bool := match v with JNull => true | _ => false end.

Section Coerce.
Variable sch : schema.

(** variable.rs:43-53, given the coercions of the same value against a named type and a full type. *)
Definition input_value (v : json) (named : tydef -> result cval) (typ : tydef -> W.wrapping -> result cval)
  : coercer := fun def w =>
  if W.is_list w && negb (is_array v) && negb (is_null v) then
    bind (named def) (fun c => Ok (iter_list (List.length (W.list_wrappings w)) c))
  else typ def w.

(** variable.rs:55-129 — [coerce_named_type] (first component) and [coerce_type] (second component)
    of one JSON value; the recursion is on the JSON value. *)
Fixpoint coerce (v : json) : (tydef -> result cval) * (tydef -> W.wrapping -> result cval) :=
  let named (def : tydef) : result cval :=
    match def with
    | DScalar s => coerce_scalar s v
    | DEnum vs => coerce_enum vs v
    | DObj id =>
        match sch id with
        | None => Panic
        | Some o =>
            match v with
            | JObj fs => coerce_fields o
                (map (fun kv => (fst kv, let c := coerce (snd kv) in input_value (snd kv) (fst c) (snd c))) fs)
            | _ => Err
            end
        end
    end in
  let typ (def : tydef) (w : W.wrapping) : result cval :=
    match W.pop_outermost_list_wrapping w with
    | None => Panic
    | Some (w', None) =>
        if is_null v then (if W.is_non_null w' then Err else Ok CNull) else named def
    | Some (w', Some lw) =>
        match v with
        | JNull => match lw with W.LListNonNull => Err | W.LList => Ok CNull end
        | JArr l => bind (sequence (map (fun x => snd (coerce x) def w') l)) (fun l' => Ok (CList l'))
        | _ => Err
        end
    end in
  (named, typ).

Definition coerce_input_value (def : tydef) (w : W.wrapping) (v : json) : result cval :=
  input_value v (fst (coerce v)) (snd (coerce v)) def w.
End Coerce.

(** variable.rs:17-32 — [coerce_variable]. *)
Definition coerce_variable (sch : schema) (def : tydef) (w : W.wrapping) (v : json) : result cval :=
  coerce_input_value sch def w v.
