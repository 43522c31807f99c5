(** What bound field selection maps stand for, which values a target takes, which data a source
    gives; nothing here is of the binding itself. *)
From Coq Require Import List NArith Bool Arith.
From Verif Require Import Response.Model Response.Spec Wrapping.Spec Views.Model Views.Spec SelectionMap.Model SelectionMap.Binding.
Import ListNotations.
Local Open Scope nat_scope.
Local Open Scope list_scope.

Definition is_composite (d : def) : Prop := match d with DObject _ | DInterface _ | DUnion _ => True | _ => False end.
Definition has_fields (d : def) : Prop := match d with DObject _ | DInterface _ => True | _ => False end.

Section Schema.
  Variable g : graph.
  Variable strings : nat -> name.
  Variable T : targets.

  (** ** Names *)
  (** The two may be the same object. *)
  Definition overlap (d e : def) : Prop := exists o, In o (gr_possible g d) /\ In o (gr_possible g e).
  (** A type with a condition on it. *)
  Inductive narrowed (d : def) : option name -> def -> Prop :=
  | NaNone : narrowed d None d
  | NaSome n e : is_composite d -> gr_type g n = Some e -> has_fields e -> overlap d e -> narrowed d (Some n) e.
  (** The fields named by the segments, each of the type reached. *)
  Inductive leads : def -> list segment -> list nat -> def -> Prop :=
  | LdNil d : leads d [] [] d
  | LdCons d s l f fs d' e :
      has_fields d -> In f (gr_fields g d) -> f_name (gr_field g f) = g_field s ->
      narrowed (t_def (f_type (gr_field g f))) (g_ty s) d' -> leads d' l fs e -> leads d (s :: l) (f :: fs) e.
  Definition leads_path (d : def) (p : path) (l : list nat) (e : def) : Prop :=
    exists d', is_composite d /\ narrowed d (p_ty p) d' /\ leads d' (p_segments p) l e.
  Inductive leads_opt (d : def) : option path -> option (list nat) -> def -> Prop :=
  | LoNone : leads_opt d None None d
  | LoSome p l e : leads_path d p l e -> leads_opt d (Some p) (Some l) e.

  Definition is_default (b : bofield) : Prop := exists i x, b = BOField i (BFDefault x) /\ a_missing T i = MDefault x.

  Inductive resolves (d : def) : value -> bvalue -> Prop :=
  | ReValue l l' : Forall2 (resolves_entry d) l l' -> resolves d (Value l) (BValue l')
  with resolves_entry (d : def) : entry -> bentry -> Prop :=
  | ReIdentity : resolves_entry d Identity BIdentity
  | RePath p l e : leads_path d p l e -> resolves_entry d (EPath p) (BPath l)
  | ReObject p l e fields bs ds : leads_opt d p l e -> Forall2 (resolves_field e) fields bs -> Forall is_default ds ->
      resolves_entry d (EObject p fields) (BObject l (bs ++ ds))
  | ReList p l e v b : leads_opt d p l e -> resolves e v b -> resolves_entry d (EList p v) (BList l b)
  with resolves_field (d : def) : ofield -> bofield -> Prop :=
  | RfValue k v i b : strings (a_key T i) = k -> resolves d v b -> resolves_field d (OField k (Some v)) (BOField i (BFValue b))
  | RfShort k i f : strings (a_key T i) = k -> has_fields d -> In f (gr_fields g d) -> f_name (gr_field g f) = k ->
      resolves_field d (OField k None) (BOField i (BFField f)).

  Definition is_default_argument (b : aofield) : Prop := exists i x, b = AOField i (AFValue (BFDefault x)) /\ a_missing T i = MDefault x.
  Inductive resolves_argument (d : def) : value -> avalue -> Prop :=
  | RaValue v b : resolves d v b -> resolves_argument d v (AValue b)
  | RaObject fields bs ds : Forall2 (resolves_afield d) fields bs -> Forall is_default_argument ds ->
      resolves_argument d (Value [EObject None fields]) (AObject (bs ++ ds))
  with resolves_afield (d : def) : ofield -> aofield -> Prop :=
  | RafObject k v i l : strings (a_key T i) = k -> resolves_argument d v (AObject l) -> resolves_afield d (OField k (Some v)) (AOField i (AFObject l))
  | RafValue f i b : resolves_field d f (BOField i b) -> resolves_afield d f (AOField i (AFValue b)).

  (** ** Values *)
  (** Which JSON values, other than null, a scalar or enum has. *)
  Variable leaf_ok : def -> out -> Prop.
  Inductive leaf_value (d : def) : ty -> out -> Prop :=
  | LvNull w : required w = false -> leaf_value d w ONull
  | LvOne b x : x <> ONull -> leaf_ok d x -> leaf_value d (Named b) x
  | LvList e b l : Forall (leaf_value d e) l -> leaf_value d (ListOf e b) (OList l).

  (** What a target takes: a target of an input object's type (or, for derived fields, of an
      object's) with its fields, each once and all those that must be. *)
  Inductive valid : nat -> ty -> out -> Prop :=
  | VdNull t w : required w = false -> valid t w ONull
  | VdLeaf t w x : match t_def (a_type T t) with DScalar _ | DEnum _ => True | _ => False end ->
      leaf_value (t_def (a_type T t)) w x -> valid t w x
  | VdList t e b l : Forall (valid t e) l -> valid t (ListOf e b) (OList l)
  | VdObject t b o ts es :
      a_object T t = Some (o, ts) -> NoDup (map fst es) ->
      (forall k x, In (k, x) es -> exists i, In i ts /\ a_key T i = k /\ valid i (t_wrap (a_type T i)) x) ->
      (forall i, In i ts -> required (t_wrap (a_type T i)) = true -> a_missing T i = MNone -> In (a_key T i) (map fst es)) ->
      valid t (Named b) (OObj es).

  (** ** Data: a tree with no objects and its JSON; a tree of a type as far as it is required,
      and having all that is required. [sdef]: the definition of a field of the schema. *)
  Inductive json : tree -> out -> Prop :=
  | JsLeaf v x : plain v x -> json (TLeaf v) x
  | JsList i l xs : Forall2 json l xs -> json (TList i l) (OList xs)
  | JsInacc i t x : json t x -> json (TInacc i t) x.

  Variable sdef : nat -> nat.
  Inductive typed : tyref -> list req -> tree -> Prop :=
  | TdInacc s r i t : typed s r t -> typed s r (TInacc i t)
  | TdLeaf d w r t x : ~ is_composite d -> json t x -> leaf_value d w x -> typed (TyRef d w) r t
  | TdNull d w r : is_composite d -> required w = false -> typed (TyRef d w) r (TLeaf VNull)
  | TdList d e b r i l : is_composite d -> Forall (typed (TyRef d e) r) l -> typed (TyRef d (ListOf e b)) r (TList i l)
  | TdObj d b r i o fs : is_composite d ->
      (forall q, In q r -> exists t, carries fs (q_key q) t) ->
      (forall q t, In q r -> carries fs (q_key q) t -> typed (f_type (gr_field g (sdef (q_field q)))) (q_sub q) t) ->
      typed (TyRef d (Named b)) r (TObj i o fs).

  (** ** Where types tell the truth
      A path passes through objects only: what it ends at, nullable if something on the way is. *)
  Inductive through : tyref -> list nat -> tyref -> Prop :=
  | ThNil s : through s [] s
  | ThCons d (b : bool) f l s :
      is_composite d ->
      through (TyRef (t_def (f_type (gr_field g f)))
                 (if b then t_wrap (f_type (gr_field g f)) else make_nullable (t_wrap (f_type (gr_field g f))))) l s ->
      through (TyRef d (Named b)) (f :: l) s.
  (** ... and all but the last field are required. *)
  Inductive direct : tyref -> list nat -> Prop :=
  | DiOne d f : is_composite d -> direct (TyRef d (Named true)) [f]
  | DiMore d f h l : is_composite d -> direct (f_type (gr_field g f)) (h :: l) -> direct (TyRef d (Named true)) (f :: h :: l).
  Definition opt_path (p : option (list nat)) : list nat := match p with Some l => l | None => [] end.
  (** Objects are made of objects and lists of lists; paths to values pass through required
      objects. *)
  Inductive clear : tyref -> bvalue -> Prop :=
  | ClValue s l : Forall (clear_entry s) l -> clear s (BValue l)
  with clear_entry : tyref -> bentry -> Prop :=
  | ClIdentity s : clear_entry s BIdentity
  | ClPath s p : direct s p -> clear_entry s (BPath p)
  | ClObject s p d b fields : through s (opt_path p) (TyRef d (Named b)) -> is_composite d ->
      Forall (clear_field (TyRef d (Named true))) fields -> clear_entry s (BObject p fields)
  | ClList s p d e b v : through s (opt_path p) (TyRef d (ListOf e b)) -> clear (TyRef d e) v -> clear_entry s (BList p v)
  with clear_field : tyref -> bofield -> Prop :=
  | CfValue s i v : clear s v -> clear_field s (BOField i (BFValue v))
  | CfField s i f : clear_field s (BOField i (BFField f))
  | CfDefault s i x : clear_field s (BOField i (BFDefault x)).
  (** Arguments: an input object is made for a target that isn't a list, defaults and plain
      fields are only there for a single parent. *)
  Inductive clear_argument : tyref -> nat -> avalue -> Prop :=
  | CaValue s t v : clear s v -> clear_argument s t (AValue v)
  | CaObject s t b l : t_wrap (a_type T t) = Named b -> Forall (clear_afield s) l -> clear_argument s t (AObject l)
  with clear_afield : tyref -> aofield -> Prop :=
  | CafObject s i l : clear_argument s i (AObject l) -> clear_afield s (AOField i (AFObject l))
  | CafValue s i v : clear s v -> clear_afield s (AOField i (AFValue (BFValue v)))
  | CafField d i f : is_composite d -> clear_afield (TyRef d (Named true)) (AOField i (AFValue (BFField f)))
  | CafDefault d i x : is_composite d -> clear_afield (TyRef d (Named true)) (AOField i (AFValue (BFDefault x))).

  (** What is written for an argument: the fields of an input object all see the same data. *)
  Inductive afills (r : list req) (t : tree) : ainj -> out -> Prop :=
  | AfInject i x : fills r i t x -> afills r t (AInject i) x
  | AfInput l es : Forall2 (fun p e => a_key T (fst p) = fst e /\ afills r t (snd p) (snd e)) l es -> afills r t (AInput l) (OObj es).
End Schema.

(** ** What is selected *)
(** The injection takes the value at the end of this path. *)
Inductive selects : inj -> list nat -> Prop :=
| SeNil i : selects i []
| SeSelect f i p : selects i p -> selects (ISelect f i) (f :: p)
| SeObject l k i p : In (k, i) l -> selects i p -> selects (IObject l) p.
Inductive in_set : list item -> list nat -> Prop :=
| IsNil s : in_set s []
| IsCons s x p : In x s -> in_set (i_sub x) p -> in_set s (i_field x :: p).
Inductive aselects : ainj -> list nat -> Prop :=
| AsInject i p : selects i p -> aselects (AInject i) p
| AsInput l k i p : In (k, i) l -> aselects i p -> aselects (AInput l) p
| AsNil i : aselects i [].
Inductive ordered_set : list item -> Prop :=
| OsAll s : increasing (map i_field s) -> Forall ordered_set (map i_sub s) -> ordered_set s.
Inductive awithin (r : list req) : ainj -> Prop :=
| AwInject i : within r i -> awithin r (AInject i)
| AwInput l : Forall (awithin r) (map snd l) -> awithin r (AInput l).
