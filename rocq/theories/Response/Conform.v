(** What is claimed about the deserialisation of subgraph responses (C19, C20):
    which data conforms to a shape. *)

From Coq Require Import List Arith ZArith String Bool Permutation.
From Verif Require Import Response.Model Response.Deserialize Response.Spec.
Import ListNotations.
Local Open Scope nat_scope.

(** ** What the client may receive *)

(** What the client is to find in an object: the fields that it asked for and
    that are included, and the same for __typename. *)
Inductive slot := SlotField (f : field) | SlotTypename (k : rkey).

Definition wanted_typename (t : rkey * bool) : bool := negb (fst (fst t) =? 0) && snd t.

Definition slots (c : concrete) : list slot :=
  map SlotField (filter reported (c_fields c))
  ++ map (fun t => SlotTypename (fst t)) (filter wanted_typename (c_typenames c)).

(** Values of scalars, null excluded. *)
Definition scalar_ok (ty : scalar) (o : out) : Prop :=
  match ty with
  | TString => exists s, o = OStr s
  | TInt => exists z, o = OInt z /\ (-2147483648 <= z <= 2147483647)%Z
  | TFloat => exists f, o = OFloat f
  | TBoolean => exists b, o = OBool b
  | TUnknown => o <> ONull
  end.

Section Conform.
  Variable obj_name : nat -> string.
  Variable obj_inaccessible : nat -> bool.
  Variable possible : nat -> list nat.

  (** The type [d] is one the shape is for, and may be shown. *)
  Definition right_type (c : concrete) (d : nat) : Prop :=
    match c_ident c with
    | IKnown d' => d = d' /\ obj_inaccessible d = false
    | ITypename i => In d (possible i) /\ obj_inaccessible d = false
    | IAnonymous => c_typenames c = []
    end.

  (** [conf w sh o]: the data [o] conforms to the type [w] over the shape [sh]:
      null only where the type allows it, every wanted field there once and
      conforming, nothing else. *)
  Inductive conf : wtype -> shape -> out -> Prop :=
  | CNull w sh : wrequired w = false -> conf w sh ONull
  | CList r w sh l : Forall (conf w sh) l -> conf (WList r w) sh (OList l)
  | CScalar r ty o : scalar_ok ty o -> conf (WNamed r) (SScalar ty) o
  | CEnum r vs s : In (s, false) vs -> conf (WNamed r) (SEnum vs) (OStr s)
  | CObj r c d kvs :
      right_type c d -> conf_obj d c kvs -> conf (WNamed r) (SConcrete c) (OObj kvs)
  | CPoly r poss fb c d kvs :
      In (d, c) poss -> obj_inaccessible d = false -> conf_obj d c kvs ->
      conf (WNamed r) (SPoly poss fb) (OObj kvs)
  | CFallback r poss c d kvs :
      (forall c', ~ In (d, c') poss) ->
      match c_ident c with ITypename i => In d (possible i) | _ => True end ->
      obj_inaccessible d = false -> conf_obj d c kvs ->
      conf (WNamed r) (SPoly poss (Some c)) (OObj kvs)
  | CEmpty r poss d :
      (forall c', ~ In (d, c') poss) -> conf (WNamed r) (SPoly poss None) (OObj [])
  with conf_obj : nat -> concrete -> list (nat * out) -> Prop :=
  | COf d c kvs ss :
      Permutation ss (slots c) -> Forall2 (conf_slot d) ss kvs -> conf_obj d c kvs
  with conf_slot : nat -> slot -> nat * out -> Prop :=
  | CSField d f o : conf (f_wrap f) (f_shape f) o -> conf_slot d (SlotField f) (f_rk f, o)
  | CSTypename d k : conf_slot d (SlotTypename k) (snd k, OStr (obj_name d)).
End Conform.

(** ** Shapes and JSON the claims are about *)

(** The keys of an object shape are distinct, those expected from the subgraph
    too, and none of these is "__typename"; the shape is marked when one of its fields has errors; a field the
    client is to receive and that is not requested has errors. *)
Inductive wf_shape : shape -> Prop :=
| WfScalar ty : wf_shape (SScalar ty)
| WfEnum vs : NoDup (map fst vs) -> wf_shape (SEnum vs)
| WfConcrete c : wf_concrete c -> wf_shape (SConcrete c)
| WfPoly poss fb :
    NoDup (map fst poss) ->
    (forall d c, In (d, c) poss -> wf_concrete c) -> (forall c, fb = Some c -> wf_concrete c) ->
    wf_shape (SPoly poss fb)
with wf_concrete : concrete -> Prop :=
| WfC c :
    NoDup (map f_key (c_fields c) ++ map t_key (c_typenames c)) ->
    NoDup (map f_expected (c_fields c)) ->
    (forall f, In f (c_fields c) -> f_expected f <> typename_key) ->
    (forall f, In f (c_fields c) -> f_errors f <> [] -> c_has_error c = true) ->
    (forall f, In f (c_fields c) -> reported f = true -> f_absent f = true -> f_errors f <> []) ->
    (forall f, In f (c_fields c) -> wf_shape (f_shape f)) ->
    wf_concrete c.

(** No object of the JSON has the same key twice. *)
Inductive distinct_keys : json -> Prop :=
| DkNull : distinct_keys JNull
| DkBool b : distinct_keys (JBool b)
| DkInt z : distinct_keys (JInt z)
| DkFloat f : distinct_keys (JFloat f)
| DkStr s : distinct_keys (JStr s)
| DkList l ok : Forall distinct_keys l -> distinct_keys (JList l ok)
| DkMap l ok : NoDup (map fst l) -> Forall distinct_keys (map snd l) -> distinct_keys (JMap l ok)
| DkBad : distinct_keys JBad.

(** No enum value of the shape is inaccessible. *)
Inductive accessible_shape : shape -> Prop :=
| AcScalar ty : accessible_shape (SScalar ty)
| AcEnum vs : (forall s i, In (s, i) vs -> i = false) -> accessible_shape (SEnum vs)
| AcConcrete c : accessible_concrete c -> accessible_shape (SConcrete c)
| AcPoly poss fb :
    (forall d c, In (d, c) poss -> accessible_concrete c) ->
    (forall c, fb = Some c -> accessible_concrete c) ->
    accessible_shape (SPoly poss fb)
with accessible_concrete : concrete -> Prop :=
| AcC c : (forall f, In f (c_fields c) -> accessible_shape (f_shape f)) -> accessible_concrete c.

(** ** What the client receives of a JSON value *)

(** The same data. *)
Inductive same_json : json -> out -> Prop :=
| SjNull : same_json JNull ONull
| SjBool b : same_json (JBool b) (OBool b)
| SjInt z : same_json (JInt z) (OInt z)
| SjFloat f : same_json (JFloat f) (OFloat f)
| SjStr s : same_json (JStr s) (OStr s)
| SjList l ol : Forall2 same_json l ol -> same_json (JList l true) (OList ol)
| SjMap l ol :
    map fst l = map fst ol -> Forall2 same_json (map snd l) (map snd ol) ->
    same_json (JMap l true) (OObj ol).

Section Shows.
  Variable obj_name : nat -> string.
  Variable obj_by_name : string -> option nat.
  Variable possible : nat -> list nat.
  Variable round_f64 : Z -> Z.

  (** A scalar read without loss; integers may be written as floats, except
      2^31-1; floats below -2^31 are taken for -2^31 (see the refutation). *)
  Inductive reads : scalar -> json -> out -> Prop :=
  | RdStr s : reads TString (JStr s) (OStr s)
  | RdBool b : reads TBoolean (JBool b) (OBool b)
  | RdInt z : (-2147483648 <= z <= 2147483647)%Z -> reads TInt (JInt z) (OInt z)
  | RdIntFloat z : (-2147483648 <= z < 2147483647)%Z -> reads TInt (JFloat (FInt z)) (OInt z)
  | RdIntLow z : (z < -2147483648)%Z -> reads TInt (JFloat (FInt z)) (OInt (-2147483648))
  | RdFloat f : reads TFloat (JFloat f) (OFloat f)
  | RdFloatInt z : reads TFloat (JInt z) (OFloat (FInt (round_f64 z)))
  | RdAny j o : same_json j o -> o <> ONull -> reads TUnknown j o.

  (** The type of an object of the response. *)
  Definition typed (c : concrete) (entries : list (nat * json)) (d : nat) : Prop :=
    match c_ident c with
    | IKnown d' => d = d'
    | ITypename i => In d (possible i) /\ In (typename_key, JStr (obj_name d)) entries
    | IAnonymous => c_typenames c = []
    end.

  (** [shows w sh j o]: nothing had to be replaced in the JSON [j], and [o] is
      what the client asked for in it, nullable fields which are missing being
      null. *)
  Inductive shows : wtype -> shape -> json -> out -> Prop :=
  | ShNull w sh : wrequired w = false -> shows w sh JNull ONull
  | ShList r w sh l ol : Forall2 (shows w sh) l ol -> shows (WList r w) sh (JList l true) (OList ol)
  | ShScalar r ty j o : reads ty j o -> shows (WNamed r) (SScalar ty) j o
  | ShEnum r vs s : In (s, false) vs -> shows (WNamed r) (SEnum vs) (JStr s) (OStr s)
  | ShObj r c d entries kvs :
      typed c entries d -> shows_obj d c entries kvs ->
      shows (WNamed r) (SConcrete c) (JMap entries true) (OObj kvs)
  | ShPoly r poss fb s c d entries kvs :
      In (typename_key, JStr s) entries -> obj_by_name s = Some d -> In (d, c) poss ->
      shows_obj d c entries kvs ->
      shows (WNamed r) (SPoly poss fb) (JMap entries true) (OObj kvs)
  | ShFallback r poss s c d entries kvs :
      In (typename_key, JStr s) entries -> obj_by_name s = Some d -> (forall c', ~ In (d, c') poss) ->
      match c_ident c with ITypename i => In d (possible i) | _ => True end ->
      shows_obj d c entries kvs ->
      shows (WNamed r) (SPoly poss (Some c)) (JMap entries true) (OObj kvs)
  | ShEmpty r poss s d entries :
      In (typename_key, JStr s) entries -> obj_by_name s = Some d -> (forall c', ~ In (d, c') poss) ->
      shows (WNamed r) (SPoly poss None) (JMap entries true) (OObj [])
  with shows_obj : nat -> concrete -> list (nat * json) -> list (nat * out) -> Prop :=
  | ShOf d c entries kvs ss :
      Permutation ss (slots c) -> Forall2 (shows_slot d entries) ss kvs -> shows_obj d c entries kvs
  with shows_slot : nat -> list (nat * json) -> slot -> nat * out -> Prop :=
  | SsField d entries f j o :
      In (f_expected f, j) entries -> shows (f_wrap f) (f_shape f) j o ->
      shows_slot d entries (SlotField f) (f_rk f, o)
  | SsMissing d entries f :
      ~ In (f_expected f) (map fst entries) -> wrequired (f_wrap f) = false ->
      shows_slot d entries (SlotField f) (f_rk f, ONull)
  | SsTypename d entries k : shows_slot d entries (SlotTypename k) (snd k, OStr (obj_name d)).

  (** [fits w sh j]: the JSON [j] is what the type [w] over the shape [sh] asks
      for, fields which the client doesn't receive included: null only where the
      type allows it, no required field missing, and nothing unreadable. *)
  Inductive fits : wtype -> shape -> json -> Prop :=
  | FtNull w sh : wrequired w = false -> fits w sh JNull
  | FtList r w sh l : Forall (fits w sh) l -> fits (WList r w) sh (JList l true)
  | FtScalar r ty j o : reads ty j o -> fits (WNamed r) (SScalar ty) j
  | FtEnum r vs s : In (s, false) vs -> fits (WNamed r) (SEnum vs) (JStr s)
  | FtObj r c d entries :
      typed c entries d -> fits_obj c entries -> fits (WNamed r) (SConcrete c) (JMap entries true)
  | FtPoly r poss fb s c d entries :
      In (typename_key, JStr s) entries -> obj_by_name s = Some d -> In (d, c) poss -> fits_obj c entries ->
      fits (WNamed r) (SPoly poss fb) (JMap entries true)
  | FtFallback r poss s c d entries :
      In (typename_key, JStr s) entries -> obj_by_name s = Some d -> (forall c', ~ In (d, c') poss) ->
      match c_ident c with ITypename i => In d (possible i) | _ => True end -> fits_obj c entries ->
      fits (WNamed r) (SPoly poss (Some c)) (JMap entries true)
  | FtEmpty r poss s d entries :
      In (typename_key, JStr s) entries -> obj_by_name s = Some d -> (forall c', ~ In (d, c') poss) ->
      (forall k j, In (k, j) entries -> exists o, same_json j o) ->
      fits (WNamed r) (SPoly poss None) (JMap entries true)
  with fits_obj : concrete -> list (nat * json) -> Prop :=
  | FtOf c entries :
      (forall k j, In (k, j) entries -> exists o, same_json j o) ->
      (forall f, In f (c_fields c) -> f_errors f = []) ->
      (forall f j, In f (c_fields c) -> In (f_expected f, j) entries -> fits (f_wrap f) (f_shape f) j) ->
      (forall f, In f (c_fields c) -> ~ In (f_expected f) (map fst entries) ->
         wrequired (f_wrap f) = false \/ reported f = false) ->
      fits_obj c entries.
End Shows.
