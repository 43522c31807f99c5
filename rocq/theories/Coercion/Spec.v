(** Specification of input coercion (GraphQL spec, section 3 "Input Coercion" rules), as a relation
    between a JSON value and the value handed to the executor.  Types are nested type references
    ([Verif.Wrapping.Spec.ty]); the packed modifiers only appear through [denotes]. *)
From Coq Require Import ZArith QArith List String Bool Sorted.
From Verif.Wrapping Require Import Spec Proofs.
From Verif.Coercion Require Import Json Model.
Import ListNotations.

Definition field_type (f : input_field) (t : ty) : Prop := denotes (f_wrapping f) t.

Definition keys {A} (fs : list (string * A)) : list string := map fst fs.

(** A value for a regular input object: every accessible field that is present is coerced, every
    absent one with a default refers to it, required fields are there and there is no unknown key. *)
Definition object_image (R : input_field -> json -> cval -> Prop)
  (ifs : list input_field) (fs : list (string * json)) (buf : list (nat * cval)) : Prop :=
  StronglySorted lt (map fst buf) /\
  (forall i c, In (i, c) buf -> exists f, nth_error ifs i = Some f /\ f_inaccessible f = false /\
     ((exists v, In (f_name f, v) fs /\ R f v c) \/
      (~ In (f_name f) (keys fs) /\ f_has_default f = true /\ c = CDefault i))) /\
  (forall i f, nth_error ifs i = Some f -> f_inaccessible f = false ->
     In (f_name f) (keys fs) \/ f_has_default f = true -> In i (map fst buf)) /\
  (forall k, In k (keys fs) -> exists f, In f ifs /\ f_inaccessible f = false /\ f_name f = k) /\
  (forall f, In f ifs -> f_inaccessible f = false -> ~ In (f_name f) (keys fs) ->
     f_has_default f = false -> exists t, field_type f t /\ required t = false).

Section Spec.
Variable sch : schema.
(** How numbers are read as Int and as Float; instantiated by the code's conversions, whose
    correctness is a separate property (C04, C37). *)
Variable int_rel : number -> Z -> Prop.
Variable float_rel : number -> Z * Z -> Prop.

(** Custom scalars accept any JSON. *)
Inductive custom : json -> cval -> Prop :=
| cu_null : custom JNull CNull
| cu_bool b : custom (JBool b) (CBool b)
| cu_str s : custom (JStr s) (CStr s)
| cu_num n m e : float_rel n (m, e) -> custom (JNum n) (CFloat m e)
| cu_arr l l' : Forall2 custom l l' -> custom (JArr l) (CList l')
| cu_obj fs fs' : Forall2 (fun kv kc => fst kv = fst kc /\ custom (snd kv) (snd kc)) fs fs' ->
                  custom (JObj fs) (CMap fs').

Inductive coerces : tydef -> ty -> json -> cval -> Prop :=
| co_null def t : required t = false -> coerces def t JNull CNull
| co_list def e r l l' : Forall2 (coerces def e) l l' -> coerces def (ListOf e r) (JArr l) (CList l')
| co_named def r v c : v <> JNull -> coerces_named def v c -> coerces def (Named r) v c
with coerces_named : tydef -> json -> cval -> Prop :=
| cn_int n z : int_rel n z -> coerces_named (DScalar SInt) (JNum n) (CInt z)
| cn_float n m e : float_rel n (m, e) -> coerces_named (DScalar SFloat) (JNum n) (CFloat m e)
| cn_string s : coerces_named (DScalar SString) (JStr s) (CStr s)
| cn_boolean b : coerces_named (DScalar SBoolean) (JBool b) (CBool b)
| cn_custom v c : custom v c -> coerces_named (DScalar SUnknown) v c
| cn_enum vs i name : nth_error vs i = Some (name, false) -> coerces_named (DEnum vs) (JStr name) (CEnum i)
| cn_one_of id o k v i f c : sch id = Some o -> is_one_of o = true ->
    nth_error (input_fields o) i = Some f -> f_inaccessible f = false -> f_name f = k ->
    coerces_in f v c -> coerces_named (DObj id) (JObj [(k, v)]) (CObj [(i, c)])
| cn_object id o fs buf : sch id = Some o -> is_one_of o = false ->
    object_image coerces_in (input_fields o) fs buf ->
    coerces_named (DObj id) (JObj fs) (CObj buf)
(** At a field (or variable) position a single value is accepted for a list. *)
with coerces_in : input_field -> json -> cval -> Prop :=
| ci_direct f t v c : field_type f t -> coerces (f_def f) t v c -> coerces_in f v c
| ci_single f t v c : field_type f t -> listp t = true -> v <> JNull -> (forall l, v <> JArr l) ->
    coerces_named (f_def f) v c -> coerces_in f v (Nat.iter (depth t) (fun x => CList [x]) c).

(** Conformance of the value handed over, independent of where it came from. *)
Inductive json_like : cval -> Prop :=
| jl_null : json_like CNull
| jl_bool b : json_like (CBool b)
| jl_str s : json_like (CStr s)
| jl_float m e : json_like (CFloat m e)
| jl_list l : Forall json_like l -> json_like (CList l)
| jl_map fs : Forall (fun kv => json_like (snd kv)) fs -> json_like (CMap fs).

Definition object_ok (R : input_field -> cval -> Prop) (ifs : list input_field) (buf : list (nat * cval)) : Prop :=
  StronglySorted lt (map fst buf) /\
  (forall i c, In (i, c) buf -> exists f, nth_error ifs i = Some f /\ f_inaccessible f = false /\
     (R f c \/ (f_has_default f = true /\ c = CDefault i))) /\
  (forall i f t, nth_error ifs i = Some f -> f_inaccessible f = false -> field_type f t -> required t = true ->
     In i (map fst buf)).

Inductive conforms : tydef -> ty -> cval -> Prop :=
| cf_null def t : required t = false -> conforms def t CNull
| cf_list def e r l : Forall (conforms def e) l -> conforms def (ListOf e r) (CList l)
| cf_named def r c : conforms_named def c -> conforms def (Named r) c
with conforms_named : tydef -> cval -> Prop :=
| cfn_int z : (-2147483648 <= z <= 2147483647)%Z -> conforms_named (DScalar SInt) (CInt z)
| cfn_float m e : conforms_named (DScalar SFloat) (CFloat m e)
| cfn_string s : conforms_named (DScalar SString) (CStr s)
| cfn_boolean b : conforms_named (DScalar SBoolean) (CBool b)
| cfn_custom c : json_like c -> c <> CNull -> conforms_named (DScalar SUnknown) c
| cfn_enum vs i name : nth_error vs i = Some (name, false) -> conforms_named (DEnum vs) (CEnum i)
| cfn_one_of id o i f c : sch id = Some o -> is_one_of o = true ->
    nth_error (input_fields o) i = Some f -> f_inaccessible f = false ->
    conforms_field f c -> conforms_named (DObj id) (CObj [(i, c)])
| cfn_object id o buf : sch id = Some o -> is_one_of o = false ->
    object_ok conforms_field (input_fields o) buf -> conforms_named (DObj id) (CObj buf)
with conforms_field : input_field -> cval -> Prop :=
| cff f t c : field_type f t -> conforms (f_def f) t c -> conforms_field f c.
End Spec.

(** Well-formed schemas: every field's modifiers were built by the builder and refer to known
    objects; field names of an object are distinct, enum value names too (GraphQL type validation). *)
Definition def_ok (sch : schema) (d : tydef) : Prop :=
  match d with
  | DScalar _ => True
  | DEnum vs => NoDup (map fst vs)
  | DObj id => exists o, sch id = Some o
  end.
Definition field_ok (sch : schema) (f : input_field) : Prop :=
  def_ok sch (f_def f) /\ exists t, field_type f t.
Definition schema_ok (sch : schema) : Prop :=
  forall id o, sch id = Some o ->
    Forall (field_ok sch) (input_fields o) /\ NoDup (map f_name (input_fields o)).
(** JSON objects have distinct keys (serde_json's Map). *)
Inductive json_ok : json -> Prop :=
| jo_null : json_ok JNull
| jo_bool b : json_ok (JBool b)
| jo_num n : json_ok (JNum n)
| jo_str s : json_ok (JStr s)
| jo_arr l : Forall json_ok l -> json_ok (JArr l)
| jo_obj fs : NoDup (keys fs) -> Forall (fun kv => json_ok (snd kv)) fs -> json_ok (JObj fs).
