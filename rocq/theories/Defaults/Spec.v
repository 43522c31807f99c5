(** Default values: what the value after the equals sign stands for, with the default values of what it
    leaves out; which schemas give every default value its meaning; values of a type. *)
From Coq Require Import String List ZArith Bool.
From Verif.ExtArgs Require Import Model.
From Verif.Defaults Require Import Model.
Import ListNotations.
Local Open Scope nat_scope.
Local Open Scope list_scope.

(** [m * 2^e] is the integer [k]. *)
Definition float_is (m e k : Z) : Prop :=
  (0 <= e /\ k = m * 2 ^ e \/ e < 0 /\ m = k * 2 ^ (- e))%Z.

Inductive as_is : value -> record -> Prop :=
| AsNull : as_is VNull RNull
| AsStr : forall s, as_is (VStr s) (RStr s)
| AsInt : forall z, as_is (VInt z) (RI64 z)
| AsFloat : forall m e, as_is (VFloat m e) (RFloat m e)
| AsBool : forall b, as_is (VBool b) (RBool b)
| AsEnum : forall s, as_is (VEnum s) (RUnboundEnum s)
| AsList : forall l rs, Forall2 as_is l rs -> as_is (VList l) (RList rs)
| AsObj : forall fs rs, Forall2 (fun f r => fst f = fst r /\ as_is (snd f) (snd r)) fs rs -> as_is (VObj fs) (RMap rs).

(** A value inside [n] lists of one element. *)
Inductive nested : nat -> record -> record -> Prop :=
| Nested0 : forall r, nested 0 r r
| NestedS : forall n r r', nested n r r' -> nested (S n) r (RList [r']).

Section Spec.
  (** The input fields and arguments by their ids, and whether an input object is a oneOf and its fields. *)
  Variable definition_of : nat -> definition.
  Variable is_one_of : nat -> bool.
  Variable fields_of : nat -> list nat.

  Definition required (w : wrapping) : Prop :=
    match lists w with [] => inner_required w = true | l :: _ => l = true end.

  (** [item req ls k v r]: the value [v] is [r] in a type with the lists [ls].  [whole]: the same, or the
      one element of lists.  [default_as id r]: the default value of [id] is [r]. *)
  Inductive item : bool -> list bool -> kind -> value -> record -> Prop :=
  | ItNull : forall k, item false [] k VNull RNull
  | ItNamed : forall q k v r, v <> VNull -> named_as k v r -> item q [] k v r
  | ItNoList : forall q ls k, item q (false :: ls) k VNull RNull
  | ItList : forall q l ls k vs rs, items q ls k vs rs -> item q (l :: ls) k (VList vs) (RList rs)
  with items : bool -> list bool -> kind -> list value -> list record -> Prop :=
  | IsNil : forall q ls k, items q ls k [] []
  | IsCons : forall q ls k v vs r rs, item q ls k v r -> items q ls k vs rs -> items q ls k (v :: vs) (r :: rs)
  with whole : wrapping -> kind -> value -> record -> Prop :=
  | WhItem : forall w k v r, item (inner_required w) (lists w) k v r -> whole w k v r
  | WhSingle : forall w k v r r', lists w <> [] -> v <> VNull -> (forall l, v <> VList l) ->
      named_as k v r -> nested (List.length (lists w)) r r' -> whole w k v r'
  with named_as : kind -> value -> record -> Prop :=
  | NaString : forall s, named_as (KScalar ScString) (VStr s) (RStr s)
  | NaFloat : forall m e, named_as (KScalar ScFloat) (VFloat m e) (RFloat m e)
  | NaIntFloat : forall z m e, Verif.Coercion.Model.f64_of_Z z = (m, e) -> named_as (KScalar ScFloat) (VInt z) (RFloat m e)
  | NaInt : forall z, (-2147483648 <= z <= 2147483647)%Z -> named_as (KScalar ScInt) (VInt z) (RInt z)
  | NaFloatInt : forall m e k, float_is m e k -> (k < 2147483647)%Z ->
      named_as (KScalar ScInt) (VFloat m e) (RInt (Z.max (-2147483648) k))
  | NaBool : forall b, named_as (KScalar ScBoolean) (VBool b) (RBool b)
  | NaUnknown : forall v r, as_is v r -> named_as (KScalar ScUnknown) v r
  | NaEnum : forall values s, In s values -> named_as (KEnum values) (VEnum s) (REnum s)
  | NaOneOf : forall o id k v r, is_one_of o = true -> In id (fields_of o) -> d_name (definition_of id) = k ->
      whole (d_wrapping (definition_of id)) (d_kind (definition_of id)) v r ->
      named_as (KObject o) (VObj [(k, v)]) (RObject [(id, r)])
  | NaObject : forall o fs rs, is_one_of o = false ->
      (* no field twice, none unknown *)
      NoDup (map fst fs) -> incl (map fst fs) (map (fun id => d_name (definition_of id)) (fields_of o)) ->
      fields_as fs (fields_of o) rs -> named_as (KObject o) (VObj fs) (RObject rs)
  with fields_as : list (string * value) -> list nat -> list (nat * record) -> Prop :=
  | FaNil : forall fs, fields_as fs [] []
  | FaGiven : forall fs id ids v r rs, In (d_name (definition_of id), v) fs ->
      whole (d_wrapping (definition_of id)) (d_kind (definition_of id)) v r ->
      fields_as fs ids rs -> fields_as fs (id :: ids) ((id, r) :: rs)
  | FaDefault : forall fs id ids r rs, ~ In (d_name (definition_of id)) (map fst fs) -> default_as id r ->
      fields_as fs ids rs -> fields_as fs (id :: ids) ((id, r) :: rs)
  | FaAbsent : forall fs id ids rs, ~ In (d_name (definition_of id)) (map fst fs) -> d_default (definition_of id) = None ->
      ~ required (d_wrapping (definition_of id)) ->
      fields_as fs ids rs -> fields_as fs (id :: ids) rs
  with default_as : nat -> record -> Prop :=
  | Default : forall id v r, d_default (definition_of id) = Some v ->
      whole (d_wrapping (definition_of id)) (d_kind (definition_of id)) v r -> default_as id r.

  (** One input object contains another, at any depth. *)
  Inductive contains : nat -> nat -> Prop :=
  | CSame : forall o, contains o o
  | CField : forall o id o' o'', In id (fields_of o) -> d_kind (definition_of id) = KObject o' -> contains o' o'' -> contains o o''.

  (** No default value where an input object contains itself. *)
  Definition no_cycle : Prop := forall o id o',
    In id (fields_of o) -> d_default (definition_of id) <> None -> d_kind (definition_of id) = KObject o' -> ~ contains o' o.

  (** Fields are of one input object, and have different names there. *)
  Definition well_formed : Prop :=
    (forall o o' id, In id (fields_of o) -> In id (fields_of o') -> o = o') /\
    (forall o, NoDup (map (fun id => d_name (definition_of id)) (fields_of o))).

  (** *** Values of a type *)

  Inductive fixed : record -> Prop :=
  | FxNull : fixed RNull
  | FxStr : forall s, fixed (RStr s)
  | FxEnum : forall s, fixed (RUnboundEnum s)
  | FxI64 : forall z, fixed (RI64 z)
  | FxFloat : forall m e, fixed (RFloat m e)
  | FxBool : forall b, fixed (RBool b)
  | FxList : forall l, Forall fixed l -> fixed (RList l)
  | FxMap : forall fs, Forall (fun f => fixed (snd f)) fs -> fixed (RMap fs).

  Inductive has_type : bool -> list bool -> kind -> record -> Prop :=
  | HtNull : forall k, has_type false [] k RNull
  | HtNoList : forall q ls k, has_type q (false :: ls) k RNull
  | HtList : forall q l ls k rs, have_type q ls k rs -> has_type q (l :: ls) k (RList rs)
  | HtNamed : forall q k r, of_kind k r -> has_type q [] k r
  with have_type : bool -> list bool -> kind -> list record -> Prop :=
  | HtNil : forall q ls k, have_type q ls k []
  | HtCons : forall q ls k r rs, has_type q ls k r -> have_type q ls k rs -> have_type q ls k (r :: rs)
  with of_kind : kind -> record -> Prop :=
  | OkString : forall s, of_kind (KScalar ScString) (RStr s)
  | OkFloat : forall m e, of_kind (KScalar ScFloat) (RFloat m e)
  | OkInt : forall z, (-2147483648 <= z <= 2147483647)%Z -> of_kind (KScalar ScInt) (RInt z)
  | OkBool : forall b, of_kind (KScalar ScBoolean) (RBool b)
  | OkUnknown : forall r, r <> RNull -> fixed r -> of_kind (KScalar ScUnknown) r
  | OkEnum : forall values s, In s values -> of_kind (KEnum values) (REnum s)
  | OkOneOf : forall o id r, is_one_of o = true -> In id (fields_of o) ->
      has_type (inner_required (d_wrapping (definition_of id))) (lists (d_wrapping (definition_of id))) (d_kind (definition_of id)) r ->
      of_kind (KObject o) (RObject [(id, r)])
  | OkObject : forall o rs, is_one_of o = false -> of_fields (fields_of o) rs -> of_kind (KObject o) (RObject rs)
  with of_fields : list nat -> list (nat * record) -> Prop :=
  | OfNil : of_fields [] []
  | OfGiven : forall id ids r rs,
      has_type (inner_required (d_wrapping (definition_of id))) (lists (d_wrapping (definition_of id))) (d_kind (definition_of id)) r ->
      of_fields ids rs -> of_fields (id :: ids) ((id, r) :: rs)
  | OfAbsent : forall id ids rs, ~ required (d_wrapping (definition_of id)) -> of_fields ids rs -> of_fields (id :: ids) rs.
End Spec.
