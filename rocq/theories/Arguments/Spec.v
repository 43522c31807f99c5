(** Specification of argument values: which literals fit a type, which JSON they stand for, and which
    JSON a type accepts (GraphQL spec, section 3 "Input Coercion", 5.6 "Values", 6.4.1).
    Types are nested type references ([Verif.Wrapping.Spec.ty]) over a type id. *)
From Coq Require Import ZArith QArith String List Bool.
From Verif.Wrapping Require Import Spec Proofs.
From Verif.Coercion Require Import Json Model.
From Verif.Arguments Require Import Model.
Import ListNotations.
Local Open Scope list_scope.

Definition names {A} (fs : list (string * A)) : list string := map fst fs.
Definition visible (f : adef) : Prop := a_inaccessible f = false.
Definition type_of (f : adef) (t : ty) : Prop := denotes (a_wrapping f) t.
(** The integer a (finite) double stands for. *)
Definition integral (m e k : Z) : Prop := num_value (Flt m e) == inject_Z k.
Definition int32 (z : Z) : Prop := (-2147483648 <= z <= 2147483647)%Z.

(** ** Literals that fit a type *)
(** Literals without variables nor enum values. *)
Inductive plain : lit -> Prop :=
| pl_null : plain LNull
| pl_int z : plain (LInt z)
| pl_float m e : plain (LFloat m e)
| pl_str s : plain (LStr s)
| pl_bool b : plain (LBool b)
| pl_list l : Forall plain l -> plain (LList l)
| pl_obj fs : Forall (fun kv => plain (snd kv)) fs -> plain (LObj fs).

(** Named values for a list of definitions (fields of an input object, arguments of a field): names
    are written once, each is a visible definition's and its value fits, and nothing required is
    missing. *)
Definition fields_fit (R : adef -> lit -> Prop) (defs : list adef) (fs : list (string * lit)) : Prop :=
  NoDup (names fs) /\
  (forall k v, In (k, v) fs -> exists f, In f defs /\ visible f /\ a_name f = k /\ R f v) /\
  (forall f t, In f defs -> visible f -> type_of f t -> required t = true -> a_default f = None -> In (a_name f) (names fs)).

Section Fit.
Variable sch : gschema.
(** Whether a variable may be used where a value of some type is expected. *)
Variable usable : string -> nat -> ty -> Prop.

Inductive fits : nat -> ty -> lit -> Prop :=
| fi_var t u x : usable x t u -> fits t u (LVar x)
| fi_null t u : required u = false -> fits t u LNull
| fi_list t e r l : Forall (fits t e) l -> fits t (ListOf e r) (LList l)
| fi_named t r v : v <> LNull -> (forall x, v <> LVar x) -> fits_named (types sch t) v -> fits t (Named r) v
with fits_named : tydef -> lit -> Prop :=
| fn_int z : int32 z -> fits_named (DScalar SInt) (LInt z)
| fn_int_float m e k : integral m e k -> (k < 2147483647)%Z -> fits_named (DScalar SInt) (LFloat m e)
| fn_float_int z : fits_named (DScalar SFloat) (LInt z)
| fn_float m e : fits_named (DScalar SFloat) (LFloat m e)
| fn_string s : fits_named (DScalar SString) (LStr s)
| fn_boolean b : fits_named (DScalar SBoolean) (LBool b)
| fn_custom v : plain v -> fits_named (DScalar SUnknown) v
| fn_enum vs n : In (n, false) vs -> fits_named (DEnum vs) (LEnum n)
| fn_one_of id defs f v : objects sch id = Some (true, defs) -> In f defs -> visible f -> fits_in f v ->
    fits_named (DObj id) (LObj [(a_name f, v)])
| fn_object id defs fs : objects sch id = Some (false, defs) -> fields_fit fits_in defs fs ->
    fits_named (DObj id) (LObj fs)
(** As a field or an argument, a single value is accepted for a list. *)
with fits_in : adef -> lit -> Prop :=
| ff_direct f u v : type_of f u -> fits (a_type f) u v -> fits_in f v
| ff_single f u v : type_of f u -> listp u = true -> v <> LNull -> (forall x, v <> LVar x) -> (forall l, v <> LList l) ->
    fits_named (types sch (a_type f)) v -> fits_in f v.
End Fit.

(** The rule of the implementation for variables: the declared type is at least as strict, or isn't
    a list and is not null where null isn't allowed. *)
Definition usable_as (declared used : ty) : Prop :=
  lenient used declared \/ (listp declared = false /\ (required used = true -> required declared = true)).
(** A declared variable may be used; none in a default value. *)
Definition usable_var (vars : list vdef) (in_default : bool) (x : string) (t : nat) (u : ty) : Prop :=
  in_default = false /\
  exists v d, In v vars /\ v_name v = x /\ v_type v = t /\ denotes (v_wrapping v) d /\ usable_as d u.
(** The value of a variable, given the value of each definition. *)
Definition value_of (vars : list vdef) (env : nat -> option json) (x : string) : option json :=
  match position x vars 0 with Some (id, _) => env id | None => None end.
(** The rule of the GraphQL specification (5.8.5 "All Variable Usages Are Allowed"); [default] says
    whether the variable, respectively the place it is used at, has a default that isn't null. *)
Definition allowed_by_graphql (declared : ty) (var_default : bool) (used : ty) (place_default : bool) : Prop :=
  lenient used declared \/
  (required used = true /\ required declared = false /\ (var_default = true \/ place_default = true) /\
   lenient (make_nullable used) declared).

(** ** What a literal stands for *)
Inductive stands_custom : lit -> json -> Prop :=
| sc_null : stands_custom LNull JNull
| sc_int z : stands_custom (LInt z) (jint z)
| sc_float m e : stands_custom (LFloat m e) (JNum (Flt m e))
| sc_str s : stands_custom (LStr s) (JStr s)
| sc_bool b : stands_custom (LBool b) (JBool b)
| sc_list l js : Forall2 stands_custom l js -> stands_custom (LList l) (JArr js)
| sc_obj fs js : Forall2 (fun kv kj => fst kv = fst kj /\ stands_custom (snd kv) (snd kj)) fs js ->
    stands_custom (LObj fs) (JObj js).

Section Stands.
Variable sch : gschema.
(** The JSON of each variable by name, [None] when it has no value. *)
Variable value : string -> option json.

Definition default_of (f : adef) : list (string * json) :=
  match a_default f with Some s => [(a_name f, ser_sval s)] | None => [] end.
(** What is sent for one definition, given everything that was written. *)
Definition sent_for (R : adef -> lit -> json -> Prop) (fs : list (string * lit)) (f : adef) (part : list (string * json)) : Prop :=
  (exists v j, In (a_name f, v) fs /\ (forall x, v = LVar x -> value x <> None) /\ R f v j /\ part = [(a_name f, j)]) \/
  (exists x, In (a_name f, LVar x) fs /\ value x = None /\ part = default_of f) \/
  (~ In (a_name f) (names fs) /\ part = default_of f).
Definition fields_stand (R : adef -> lit -> json -> Prop) (defs : list adef) (fs : list (string * lit)) (js : list (string * json)) : Prop :=
  NoDup (names fs) /\
  exists parts, Forall2 (sent_for R fs) (filter (fun f => negb (a_inaccessible f)) defs) parts /\ js = concat parts.

Inductive stands : nat -> ty -> lit -> json -> Prop :=
| st_var t u x j : value x = Some j -> stands t u (LVar x) j
| st_undefined t u x : value x = None -> stands t u (LVar x) JNull
| st_null t u : stands t u LNull JNull
| st_list t e r l js : Forall2 (stands t e) l js -> stands t (ListOf e r) (LList l) (JArr js)
| st_named t r v j : v <> LNull -> (forall x, v <> LVar x) -> stands_named (types sch t) v j -> stands t (Named r) v j
with stands_named : tydef -> lit -> json -> Prop :=
| sn_int z : stands_named (DScalar SInt) (LInt z) (jint z)
| sn_int_float m e k : integral m e k -> stands_named (DScalar SInt) (LFloat m e) (jint (Z.max (-2147483648) k))
| sn_float_int z m e : f64_of_Z z = (m, e) -> stands_named (DScalar SFloat) (LInt z) (JNum (Flt m e))
| sn_float m e : stands_named (DScalar SFloat) (LFloat m e) (JNum (Flt m e))
| sn_string s : stands_named (DScalar SString) (LStr s) (JStr s)
| sn_boolean b : stands_named (DScalar SBoolean) (LBool b) (JBool b)
| sn_custom v j : stands_custom v j -> stands_named (DScalar SUnknown) v j
| sn_enum vs n : stands_named (DEnum vs) (LEnum n) (JStr n)
| sn_one_of id defs f v part : objects sch id = Some (true, defs) -> In f defs -> visible f ->
    sent_for stands_in [(a_name f, v)] f part -> stands_named (DObj id) (LObj [(a_name f, v)]) (JObj part)
| sn_object id defs fs js : objects sch id = Some (false, defs) -> fields_stand stands_in defs fs js ->
    stands_named (DObj id) (LObj fs) (JObj js)
with stands_in : adef -> lit -> json -> Prop :=
| si_direct f u v j : type_of f u -> stands (a_type f) u v j -> stands_in f v j
| si_single f u v j : type_of f u -> listp u = true -> v <> LNull -> (forall x, v <> LVar x) -> (forall l, v <> LList l) ->
    stands_named (types sch (a_type f)) v j -> stands_in f v (Nat.iter (depth u) (fun x => JArr [x]) j).
End Stands.

(** ** JSON a type accepts *)
Section Accept.
Variable sch : gschema.

Definition fields_accepted (R : adef -> json -> Prop) (defs : list adef) (js : list (string * json)) : Prop :=
  NoDup (names js) /\
  (forall k j, In (k, j) js -> exists f, In f defs /\ a_name f = k /\ R f j) /\
  (forall f t, In f defs -> visible f -> type_of f t -> required t = true -> In (a_name f) (names js)).

Inductive accepted : nat -> ty -> json -> Prop :=
| ac_null t u : required u = false -> accepted t u JNull
| ac_list t e r l : Forall (accepted t e) l -> accepted t (ListOf e r) (JArr l)
| ac_single t e r j : j <> JNull -> (forall l, j <> JArr l) -> accepted t e j -> accepted t (ListOf e r) j
| ac_named t r j : j <> JNull -> accepted_named (types sch t) j -> accepted t (Named r) j
with accepted_named : tydef -> json -> Prop :=
| an_int n z : num_value n == inject_Z z -> int32 z -> accepted_named (DScalar SInt) (JNum n)
| an_float n : accepted_named (DScalar SFloat) (JNum n)
| an_string s : accepted_named (DScalar SString) (JStr s)
| an_boolean b : accepted_named (DScalar SBoolean) (JBool b)
| an_custom j : accepted_named (DScalar SUnknown) j
| an_enum vs n h : In (n, h) vs -> accepted_named (DEnum vs) (JStr n)
| an_one_of id defs f j : objects sch id = Some (true, defs) -> In f defs -> accepted_in f j ->
    accepted_named (DObj id) (JObj [(a_name f, j)])
| an_object id defs js : objects sch id = Some (false, defs) -> fields_accepted accepted_in defs js ->
    accepted_named (DObj id) (JObj js)
with accepted_in : adef -> json -> Prop :=
| ai f u j : type_of f u -> accepted (a_type f) u j -> accepted_in f j.
End Accept.

(** ** Well-formed schemas *)
(** Modifiers were built by the builder; names of fields, arguments and enum values are distinct;
    @oneOf fields have no default; defaults are values of their type. *)
Definition type_ok (sch : gschema) (t : nat) : Prop :=
  match types sch t with
  | DScalar _ => True
  | DEnum vs => NoDup (map fst vs)
  | DObj id => exists o, objects sch id = Some o
  end.
Definition def_ok (sch : gschema) (f : adef) : Prop :=
  type_ok sch (a_type f) /\ (exists u, type_of f u) /\
  (forall s, a_default f = Some s -> accepted_in sch f (ser_sval s)).
Definition defs_ok (sch : gschema) (defs : list adef) : Prop :=
  Forall (def_ok sch) defs /\ NoDup (map a_name defs).
Definition schema_ok (sch : gschema) : Prop :=
  forall id one_of defs, objects sch id = Some (one_of, defs) ->
    defs_ok sch defs /\ (one_of = true -> Forall (fun f => a_default f = None) defs).

(** ** Variables written in a literal *)
(** [written d v x one_of]: variable [x] is written in literal [v] of type [d], directly as the field
    of a @oneOf object if [one_of]. *)
Inductive written (sch : gschema) : tydef -> lit -> string -> bool -> Prop :=
| wr_var d x : written sch d (LVar x) x false
| wr_item d l v x o : In v l -> written sch d v x o -> written sch d (LList l) x o
| wr_one_of id defs f fs x : objects sch id = Some (true, defs) -> In f defs -> visible f -> In (a_name f, LVar x) fs ->
    written sch (DObj id) (LObj fs) x true
| wr_field id one_of defs f fs v x o : objects sch id = Some (one_of, defs) -> In f defs -> visible f -> In (a_name f, v) fs ->
    (one_of = true -> forall y, v <> LVar y) -> written sch (types sch (a_type f)) v x o ->
    written sch (DObj id) (LObj fs) x o.

(** ** Operations *)
Definition fits_at (sch : gschema) (usable : string -> nat -> ty -> Prop) (t : nat) (u : ty) (v : lit) : Prop :=
  exists f, a_type f = t /\ type_of f u /\ fits_in sch usable f v.
(** The type a variable is given: the declared one, unless it has a default that isn't null.  Then it
    is made required, or, if it is a list, put into another (required) list (C07). *)
Definition recorded (p : pvar) : ty :=
  match p_default p with
  | Some LNull | None => p_ty p
  | Some _ => if listp (p_ty p) then ListOf (p_ty p) true else make_required (p_ty p)
  end.
Definition declared (ps : list pvar) (x : string) (t : nat) (u : ty) : Prop :=
  exists p, In p ps /\ p_name p = x /\ p_type p = Some t /\ usable_as (recorded p) u.
(** @skip and @include: a first argument, whatever its name, that is a value of [Boolean!]. *)
Definition site_fits (sch : gschema) (boolean : nat) (ps : list pvar) (s : site) : Prop :=
  match s with
  | SField defs args => fields_fit (fits_in sch (declared ps)) defs args
  | SCondition args => exists k v rest, args = (k, v) :: rest /\ fits_at sch (declared ps) boolean (Named true) v
  end.
Definition site_mentions (sch : gschema) (boolean : nat) (s : site) (x : string) (one_of : bool) : Prop :=
  match s with
  | SField defs args => exists f v, In f defs /\ visible f /\ In (a_name f, v) args /\ written sch (types sch (a_type f)) v x one_of
  | SCondition args => exists k v rest, args = (k, v) :: rest /\ written sch (types sch boolean) v x one_of
  end.
Definition mentioned (sch : gschema) (boolean : nat) (sites : list site) (x : string) (one_of : bool) : Prop :=
  exists s, In s sites /\ site_mentions sch boolean s x one_of.
Definition operation_fits (sch : gschema) (boolean : nat) (ps : list pvar) (sites : list site) : Prop :=
  NoDup (map p_name ps) /\
  (forall p, In p ps -> exists t, p_type p = Some t /\ (depth (recorded p) <= 10)%nat /\
     forall v, p_default p = Some v -> fits_at sch (fun _ _ _ => False) t (recorded p) v) /\
  Forall (site_fits sch boolean ps) sites /\
  (forall p, In p ps -> exists o, mentioned sch boolean sites (p_name p) o).

Definition operation_ok (sch : gschema) (boolean : nat) (ps : list pvar) (sites : list site) : Prop :=
  schema_ok sch /\ types sch boolean = DScalar SBoolean /\
  (forall p t, In p ps -> p_type p = Some t -> type_ok sch t) /\
  (forall defs args, In (SField defs args) sites -> defs_ok sch defs).
