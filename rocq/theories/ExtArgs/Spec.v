(** Arguments of extension directives: which values are accepted and what they become; the type the result
    has; when it can be computed; what the extension is given. *)
From Coq Require Import String List ZArith Bool.
From Verif.ExtArgs Require Import Model.
Import ListNotations.
Local Open Scope string_scope.
Local Open Scope list_scope.

Section Spec.
  Context {VS FS TPL : Type}.
  Notation ev := (ev VS FS TPL).

  (** The extension's SDL, the place of the directive, and what the special scalars mean there. *)
  Variable special_of : string -> option special.
  Variable definition_of : string -> option definition.
  Variable on_field : bool.
  Variable empty_set : VS.
  Variable is_set : string -> VS -> Prop.
  Variable is_field_set : string -> FS -> Prop.
  Variable is_template : special -> string -> TPL -> Prop.

  Definition plain_name (n : string) : Prop := ~ In n ["ID"; "String"; "Int"; "Float"; "Boolean"].

  (** [m * 2^e] is the integer [k]. *)
  Definition float_is (m e k : Z) : Prop :=
    (0 <= e /\ k = m * 2 ^ e \/ e < 0 /\ m = k * 2 ^ (- e))%Z.

  (** *** Accepted values *)

  (** A value of a custom scalar is taken as it is. *)
  Inductive as_is : value -> ev -> Prop :=
  | AsNull : as_is VNull ENull
  | AsStr : forall s, as_is (VStr s) (EStr s)
  | AsInt : forall z, as_is (VInt z) (EI64 z)
  | AsFloat : forall m e, as_is (VFloat m e) (EFloat m e)
  | AsBool : forall b, as_is (VBool b) (EBool b)
  | AsEnum : forall s, as_is (VEnum s) (EEnum s)
  | AsList : forall l es, Forall2 as_is l es -> as_is (VList l) (EList es)
  | AsObj : forall fs es, Forall2 (fun f e => fst f = fst e /\ as_is (snd f) (snd e)) fs es -> as_is (VObj fs) (EMap es).

  (** How many lists are around the name. *)
  Inductive nested : nat -> ev -> ev -> Prop :=
  | Nested0 : forall e, nested 0 e e
  | NestedS : forall n e e', nested n e e' -> nested (S n) e (EList [e']).

  Definition lists (ws : list wrapper) : nat := List.length (List.filter (fun w => match w with WList => true | _ => false end) ws).

  Section Default.
  (** Whether this is the default value of the argument. *)
  Variable dflt : bool.

  (** [item ws n v e]: inside its type.  [whole t v e]: the same, or a value that is not a list where a list
      is expected, which stands for lists of one element. *)
  Inductive item : list wrapper -> string -> value -> ev -> Prop :=
  | ItNull : forall n, item [] n VNull ENull
  | ItNamed : forall n v e, v <> VNull -> named_as n v e -> item [] n v e
  | ItNonNull : forall ws n v e, v <> VNull -> item ws n v e -> item (WNonNull :: ws) n v e
  | ItList : forall ws n l es, items ws n l es -> item (WList :: ws) n (VList l) (EList es)
  with items : list wrapper -> string -> list value -> list ev -> Prop :=
  | IsNil : forall ws n, items ws n [] []
  | IsCons : forall ws n v l e es, item ws n v e -> items ws n l es -> items ws n (v :: l) (e :: es)
  with whole : type -> value -> ev -> Prop :=
  | WhItem : forall t v e, item (wrappers t) (named t) v e -> whole t v e
  | WhSingle : forall t v e e',
      lists (wrappers t) <> 0 -> v <> VNull -> (forall l, v <> VList l) ->
      named_as (named t) v e -> nested (lists (wrappers t)) e e' -> whole t v e'
  with named_as : string -> value -> ev -> Prop :=
  | NaString : forall s, named_as "String" (VStr s) (EStr s)
  | NaId : forall s, named_as "ID" (VStr s) (EStr s)
  | NaFloat : forall m e, named_as "Float" (VFloat m e) (EFloat m e)
  | NaIntFloat : forall z m e, Verif.Coercion.Model.f64_of_Z z = (m, e) -> named_as "Float" (VInt z) (EFloat m e)
  | NaInt : forall z, (-2147483648 <= z <= 2147483647)%Z -> named_as "Int" (VInt z) (EInt z)
  | NaFloatInt : forall m e k, float_is m e k -> (k < 2147483647)%Z -> named_as "Int" (VFloat m e) (EInt (Z.max (-2147483648) k))
  | NaBool : forall b, named_as "Boolean" (VBool b) (EBool b)
  | NaSet : forall n s x, plain_name n -> special_of n = Some SInputValueSet -> on_field = true -> is_set s x ->
      named_as n (VStr s) (EValueSet x)
  | NaDefaultSet : forall n s, plain_name n -> special_of n = Some SInputValueSet -> on_field = false -> dflt = true ->
      named_as n (VStr s) (EValueSet empty_set)
  | NaFieldSet : forall n s x, plain_name n -> special_of n = Some SFieldSet -> is_field_set s x ->
      named_as n (VStr s) (EFieldSet x)
  | NaTemplate : forall n k s x, plain_name n -> special_of n = Some k -> k = SUrlTemplate \/ k = SJsonTemplate -> is_template k s x ->
      named_as n (VStr s) (ETemplate x)
  | NaScalar : forall n v e, plain_name n -> special_of n = None -> definition_of n = Some DScalarType -> as_is v e -> named_as n v e
  | NaEnum : forall n values s, plain_name n -> special_of n = None -> definition_of n = Some (DEnumType values) -> In s values ->
      named_as n (VEnum s) (EEnum s)
  | NaOneOf : forall n pre d post k v e, plain_name n -> special_of n = None ->
      definition_of n = Some (DInput true (pre ++ d :: post)) ->
      iname d = k -> ~ In k (map iname pre) -> whole (ity d) v e ->
      named_as n (VObj [(k, v)]) (EMap [(k, e)])
  | NaObject : forall n defs fs es, plain_name n -> special_of n = None -> definition_of n = Some (DInput false defs) ->
      (* no field twice, none unknown *)
      NoDup (map fst fs) -> incl (map fst fs) (map iname defs) ->
      fields_as fs defs es -> named_as n (VObj fs) (EMap es)
  with fields_as : list (string * value) -> list input -> list (string * ev) -> Prop :=
  | FaNil : forall fs, fields_as fs [] []
  | FaGiven : forall fs d defs v e es, In (iname d, v) fs -> whole (ity d) v e -> fields_as fs defs es ->
      fields_as fs (d :: defs) ((iname d, e) :: es)
  | FaDefault : forall fs d defs v e es, ~ In (iname d) (map fst fs) -> idefault d = Some v -> whole (ity d) v e ->
      fields_as fs defs es -> fields_as fs (d :: defs) ((iname d, e) :: es)
  | FaAbsent : forall fs d defs es, ~ In (iname d) (map fst fs) -> idefault d = None -> (forall ws, wrappers (ity d) <> WNonNull :: ws) ->
      fields_as fs defs es -> fields_as fs (d :: defs) es.
  End Default.

  (** The arguments of a directive: each is the one given, or the default, or absent. *)
  Inductive arguments_as : list (string * value) -> list input -> list (string * ev) -> Prop :=
  | AaNil : forall args, arguments_as args [] []
  | AaGiven : forall args d defs v e es, In (iname d, v) args -> whole false (ity d) v e -> arguments_as args defs es ->
      arguments_as args (d :: defs) ((iname d, e) :: es)
  | AaDefault : forall args d defs v e es, ~ In (iname d) (map fst args) -> idefault d = Some v -> whole true (ity d) v e ->
      arguments_as args defs es -> arguments_as args (d :: defs) ((iname d, e) :: es)
  | AaAbsent : forall args d defs es, ~ In (iname d) (map fst args) -> idefault d = None -> (forall ws, wrappers (ity d) <> WNonNull :: ws) ->
      arguments_as args defs es -> arguments_as args (d :: defs) es.

  (** *** Types of the results *)

  (** Without anything to inject. *)
  Inductive fixed : ev -> Prop :=
  | FxNull : fixed ENull
  | FxStr : forall s, fixed (EStr s)
  | FxEnum : forall s, fixed (EEnum s)
  | FxI64 : forall z, fixed (EI64 z)
  | FxFloat : forall m e, fixed (EFloat m e)
  | FxBool : forall b, fixed (EBool b)
  | FxList : forall l, Forall fixed l -> fixed (EList l)
  | FxMap : forall fs, Forall (fun f => fixed (snd f)) fs -> fixed (EMap fs).

  Inductive has_type : list wrapper -> string -> ev -> Prop :=
  | HtNull : forall ws n, (forall ws', ws <> WNonNull :: ws') -> has_type ws n ENull
  | HtNonNull : forall ws n e, e <> ENull -> has_type ws n e -> has_type (WNonNull :: ws) n e
  | HtList : forall ws n l, have_type ws n l -> has_type (WList :: ws) n (EList l)
  | HtNamed : forall n e, of_named n e -> has_type [] n e
  with have_type : list wrapper -> string -> list ev -> Prop :=
  | HtNil : forall ws n, have_type ws n []
  | HtCons : forall ws n e l, has_type ws n e -> have_type ws n l -> have_type ws n (e :: l)
  with of_named : string -> ev -> Prop :=
  | OnString : forall n s, n = "String" \/ n = "ID" -> of_named n (EStr s)
  | OnFloat : forall m e, of_named "Float" (EFloat m e)
  | OnInt : forall z, (-2147483648 <= z <= 2147483647)%Z -> of_named "Int" (EInt z)
  | OnBool : forall b, of_named "Boolean" (EBool b)
  | OnSet : forall n x, special_of n = Some SInputValueSet -> of_named n (EValueSet x)
  | OnFieldSet : forall n x, special_of n = Some SFieldSet -> of_named n (EFieldSet x)
  | OnTemplate : forall n k x, special_of n = Some k -> k = SUrlTemplate \/ k = SJsonTemplate -> of_named n (ETemplate x)
  | OnScalar : forall n e, definition_of n = Some DScalarType -> fixed e -> e <> ENull -> of_named n e
  | OnEnum : forall n values s, definition_of n = Some (DEnumType values) -> In s values -> of_named n (EEnum s)
  | OnOneOf : forall n defs d e, definition_of n = Some (DInput true defs) -> In d defs ->
      has_type (wrappers (ity d)) (named (ity d)) e -> of_named n (EMap [(iname d, e)])
  | OnObject : forall n defs fs, definition_of n = Some (DInput false defs) -> of_fields defs fs -> of_named n (EMap fs)
  with of_fields : list input -> list (string * ev) -> Prop :=
  | OfNil : of_fields [] []
  | OfGiven : forall d defs e fs, has_type (wrappers (ity d)) (named (ity d)) e -> of_fields defs fs ->
      of_fields (d :: defs) ((iname d, e) :: fs)
  | OfAbsent : forall d defs fs, idefault d = None -> (forall ws, wrappers (ity d) <> WNonNull :: ws) -> of_fields defs fs ->
      of_fields (d :: defs) fs.

  (** *** Injections *)

  (** [within l e]: [l] is one of the places where something is injected in [e], or a leaf. *)
  Inductive within : ev -> ev -> Prop :=
  | WiHere : forall e, within e e
  | WiList : forall l e x, In x l -> within e x -> within e (EList l)
  | WiMap : forall fs e k x, In (k, x) fs -> within e x -> within e (EMap fs).

  (** What is injected is known from the arguments of the field, respectively from the response. *)
  Inductive injected : ev -> stage -> Prop :=
  | InSet : forall x, injected (EValueSet x) Query
  | InTemplate : forall x, injected (ETemplate x) Query
  | InFieldSet : forall x, injected (EFieldSet x) Response.

  Definition before (a b : stage) : Prop :=
    match a, b with
    | Static, _ | _, Response | Query, Query => True
    | _, _ => False
    end.

  (** The earliest stage at which the value is known. *)
  Definition earliest (e : ev) (s : stage) : Prop :=
    (forall x s', within x e -> injected x s' -> before s' s) /\
    (s = Static \/ exists x, within x e /\ injected x s).

  Definition needs_fields (e : ev) (f : FS) : Prop := within (EFieldSet f) e.
End Spec.
