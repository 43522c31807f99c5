(** What the arguments of a lookup must be, in terms of GraphQL types and values. *)

From Coq Require Import List Arith ZArith String Bool Permutation.
From Verif Require Import Response.Model Response.Spec Views.Model Views.Spec Lookup.Model.
Import ListNotations.
Local Open Scope nat_scope.

(** ** Values and types *)

(** The value of a wrapped type, outermost list first. *)
Inductive wrapped (P : out -> Prop) : list bool -> bool -> out -> Prop :=
| WrNull : wrapped P [] false ONull
| WrNullList l i : wrapped P (false :: l) i ONull
| WrItem b x : x <> ONull -> P x -> wrapped P [] b x
| WrList b l i xs : Forall (wrapped P l i) xs -> wrapped P (b :: l) i (OList xs).

Section Typing.
  Variable g : graph.
  (** Values of scalars and enums. *)
  Variable leaf : def -> out -> Prop.

  (** Input values (GraphQL specification 3.10, 3.13). *)
  Inductive valid : def -> out -> Prop :=
  | VaLeaf d x : leaf d x -> valid d x
  | VaObject o es :
      NoDup (map fst es) ->
      (forall n x, In (n, x) es -> exists id, In id (o_inputs (g_object g o)) /\ i_name (g_input g id) = n /\
         wrapped (valid (t_def (i_ty (g_input g id)))) (w_lists (t_wrap (i_ty (g_input g id))))
           (w_inner (t_wrap (i_ty (g_input g id)))) x) ->
      (forall id, In id (o_inputs (g_object g o)) -> is_non_null (t_wrap (i_ty (g_input g id))) = true ->
         i_default (g_input g id) = None -> In (i_name (g_input g id)) (map fst es)) ->
      (o_oneof (g_object g o) = true -> exists n x, es = [(n, x)] /\ x <> ONull) ->
      valid (DInput o) (OObj es).

  Definition valid_for (t : ty) : out -> Prop := wrapped (valid (t_def t)) (w_lists (t_wrap t)) (w_inner (t_wrap t)).

  (** The arguments of a field: each one is known, given once, has a value of its type, and
      those required are there. *)
  Definition valid_arguments (args : list nat) (es : list (nat * out)) : Prop :=
    NoDup (map fst es) /\
    (forall id x, In (id, x) es -> In id args /\ valid_for (i_ty (g_input g id)) x) /\
    (forall id, In id args -> is_non_null (t_wrap (i_ty (g_input g id))) = true ->
       i_default (g_input g id) = None -> In id (map fst es)).

  (** Data of an output type, with the fields selected at least. *)
  Inductive conforms : list req -> list item -> def -> list bool -> bool -> tree -> Prop :=
  | CoPlain r s d l i v x : plain v x -> wrapped (leaf d) l i x -> conforms r s d l i (TLeaf v)
  | CoList r s d b l i n ts : Forall (conforms r s d l i) ts -> conforms r s d (b :: l) i (TList n ts)
  | CoInacc r s d l i n t : conforms r s d l i t -> conforms r s d l i (TInacc n t)
  | CoObj r s n b m o fs : s <> [] -> (forall k, In k s -> carried r fs k) -> conforms r s (DOutput n) [] b (TObj m o fs)
  with carried : list req -> list (rkey * tree) -> item -> Prop :=
  | Carried r fs k q t : In q r -> q_field q = i_field k -> carries fs (q_key q) t ->
      conforms (q_sub q) (i_sub k) (t_def (f_ty (g_field g (i_field k))))
        (w_lists (t_wrap (f_ty (g_field g (i_field k))))) (w_inner (t_wrap (f_ty (g_field g (i_field k))))) t ->
      carried r fs k.

  (** An object to look up: it has the key. *)
  Definition entity_of (r : list req) (keys : list item) (t : tree) : Prop :=
    exists m d fs, t = TObj m d fs /\ forall k, In k keys -> carried r fs k.

  (** A schema as validation leaves it. *)
  Record sound_schema : Prop := {
    defaults : forall id x, i_default (g_input g id) = Some x -> valid_for (i_ty (g_input g id)) x;
    names : forall o, NoDup (map (fun id => i_name (g_input g id)) (o_inputs (g_object g o)));
    oneofs : forall o id, o_oneof (g_object g o) = true -> In id (o_inputs (g_object g o)) ->
      is_non_null (t_wrap (i_ty (g_input g id))) = false /\ i_default (g_input g id) = None;
    leaves : forall d x, leaf d x -> exists n, d = DScalar n \/ d = DEnum n
  }.
End Typing.

(** ** The injections stored *)

Inductive means (st : store) : vinj -> inj -> Prop :=
| MeDefault x : means st (DefaultV x) (IDefault x)
| MeIdentity : means st IdentityV IIdentity
| MeSelect f n v i : nth_error (s_injs st) n = Some v -> means st v i -> means st (SelectV f n) (ISelect f i)
| MeObject a n l : means_range st a n l -> means st (ObjectV a n) (IObject l)
with means_range (st : store) : nat -> nat -> list (nat * inj) -> Prop :=
| MrNil a : means_range st a 0 []
| MrCons a n k v i l : nth_error (s_kvs st) a = Some (k, v) -> means st v i -> means_range st (S a) n l ->
    means_range st a (S n) ((k, i) :: l).

(** The fields of an argument's input object are known by their name. *)
Inductive means_fields (g : graph) (st : store) : nat -> nat -> list (nat * inj) -> Prop :=
| MfNil a : means_fields g st a 0 []
| MfCons a n id v i l : nth_error (s_args st) a = Some (id, ValueA v) -> means st v i ->
    means_fields g st (S a) n l -> means_fields g st a (S n) ((i_name (g_input g id), i) :: l).

Inductive means_args (g : graph) (st : store) : nat -> nat -> list (nat * arg) -> Prop :=
| MaNil a : means_args g st a 0 []
| MaValue a n id v i l : nth_error (s_args st) a = Some (id, ValueA v) -> means st v i ->
    means_args g st (S a) n l -> means_args g st a (S n) ((id, ArgValue i) :: l)
| MaInput a n id b m fs l : nth_error (s_args st) a = Some (id, InputA b m) -> means_fields g st b m fs ->
    means_args g st (S a) n l -> means_args g st a (S n) ((id, ArgInput fs) :: l).

(** The injections of a schema start with the identity. *)
Definition good_store (st : store) : Prop := nth_error (s_injs st) 0 = Some IdentityV.

(** The store only grew. *)
Definition grown (st st' : store) : Prop :=
  (exists a, s_args st' = s_args st ++ a) /\ (exists a, s_injs st' = s_injs st ++ a) /\
  (exists a, s_kvs st' = s_kvs st ++ a).

(** ** What takes what *)

(** The type of an input can take that of a field: same leaf type, or an input object for an
    object; same lists; the input may be nullable while the field isn't.  In a batch the input
    is a list of it. *)
Definition takes_wrap (w f : wrap) : Prop := w = f \/ (is_non_null f = true /\ w = match w_lists f with
  | [] => MkWrap [] false | _ :: l => MkWrap (false :: l) (w_inner f) end).
Definition takes_def (i f : def) : Prop :=
  match f with DScalar _ | DEnum _ => i = f | _ => exists o, i = DInput o end.
Definition takes (batch : bool) (i : ty) (f : ty) : Prop :=
  takes_def (t_def i) (t_def f) /\
  if batch then exists b w, w_lists (t_wrap i) = b :: w_lists w /\ w_inner (t_wrap i) = w_inner w /\ takes_wrap w (t_wrap f)
  else takes_wrap (t_wrap i) (t_wrap f).

(** Among inputs and fields of the key, an input is entitled to the field with its name, or to
    the only field of its type if it is the only input of its own, nullable or not. *)
Definition entitled (g : graph) (inputs : list nat) (keys : list item) (id : nat) (k : item) : Prop :=
  f_name (g_field g (i_field k)) = i_name (g_input g id) \/
  ((forall j, In j inputs -> j <> id -> ty_non_null (i_ty (g_input g j)) <> ty_non_null (i_ty (g_input g id))) /\
   (forall k', In k' keys -> k' <> k -> f_ty (g_field g (i_field k')) <> f_ty (g_field g (i_field k)))).

(** An input given a field of the key, or its default. *)
Inductive given (g : graph) : bool -> list nat -> list item -> nat -> inj -> Prop :=
| GvDefault b inputs keys id x : i_default (g_input g id) = Some x -> given g b inputs keys id (IDefault x)
| GvLeaf b inputs keys id k : In k keys -> i_sub k = [] ->
    takes b (i_ty (g_input g id)) (f_ty (g_field g (i_field k))) -> entitled g inputs keys id k ->
    given g b inputs keys id (ISelect (i_field k) IIdentity)
| GvObject b inputs keys id k o l : In k keys -> i_sub k <> [] ->
    takes b (i_ty (g_input g id)) (f_ty (g_field g (i_field k))) -> entitled g inputs keys id k ->
    t_def (i_ty (g_input g id)) = DInput o ->
    given_all g false (i_sub k) (o_inputs (g_object g o)) l ->
    given g b inputs keys id (ISelect (i_field k) (IObject l))
(** Every field of the key is given to some input, every input without a value is optional. *)
with given_all (g : graph) : bool -> list item -> list nat -> list (nat * inj) -> Prop :=
| GvAll b keys inputs ids l :
    incl (map fst ids) inputs -> NoDup (map fst ids) ->
    given_each g b inputs keys ids ->
    (forall id, In id inputs -> is_non_null (t_wrap (i_ty (g_input g id))) = true -> In id (map fst ids)) ->
    (forall k, In k keys -> exists id next, In (id, ISelect (i_field k) next) ids) ->
    ordered_entries l ->
    Permutation l (map (fun p => (i_name (g_input g (fst p)), snd p)) ids) ->
    given_all g b keys inputs l
with given_each (g : graph) : bool -> list nat -> list item -> list (nat * inj) -> Prop :=
| GeNil b inputs keys : given_each g b inputs keys []
| GeCons b inputs keys id i l : given g b inputs keys id i -> given_each g b inputs keys l ->
    given_each g b inputs keys ((id, i) :: l).

(** The list depth of an input object standing for the whole key. *)
Definition depth_for (batch : bool) (t : ty) : Prop :=
  if batch then exists b, w_lists (t_wrap t) = [b] else w_lists (t_wrap t) = [].

(** No other argument is required. *)
Definition alone (g : graph) (args : list nat) (id : nat) : Prop :=
  In id args /\ forall j, In j args -> is_non_null (t_wrap (i_ty (g_input g j))) = true -> j = id.

(** The arguments given: each by itself, or all of the key in an input object, or a field of a
    oneof input object. *)
Inductive given_args (g : graph) (batch : bool) (keys : list item) (args : list nat) : list (nat * arg) -> Prop :=
| GaDirect ids :
    incl (map fst ids) args -> NoDup (map fst ids) -> given_each g batch args keys ids ->
    (forall id, In id args -> is_non_null (t_wrap (i_ty (g_input g id))) = true -> In id (map fst ids)) ->
    (forall k, In k keys -> exists id next, In (id, ISelect (i_field k) next) ids) ->
    given_args g batch keys args (map (fun p => (fst p, ArgValue (snd p))) ids)
| GaOneOfKey id o key field i :
    keys = [key] -> alone g args id -> t_def (i_ty (g_input g id)) = DInput o -> w_lists (t_wrap (i_ty (g_input g id))) = [] ->
    o_oneof (g_object g o) = true -> In field (o_inputs (g_object g o)) -> given g batch (o_inputs (g_object g o)) keys field i ->
    given_args g batch keys args [(id, ArgInput [(i_name (g_input g field), i)])]
| GaOneOf id o field o' l :
    alone g args id -> t_def (i_ty (g_input g id)) = DInput o -> w_lists (t_wrap (i_ty (g_input g id))) = [] ->
    o_oneof (g_object g o) = true -> In field (o_inputs (g_object g o)) -> t_def (i_ty (g_input g field)) = DInput o' ->
    depth_for batch (i_ty (g_input g field)) -> given_all g false keys (o_inputs (g_object g o')) l ->
    given_args g batch keys args [(id, ArgInput [(i_name (g_input g field), IObject l)])]
| GaObject id o l :
    alone g args id -> t_def (i_ty (g_input g id)) = DInput o -> o_oneof (g_object g o) = false ->
    depth_for batch (i_ty (g_input g id)) -> given_all g false keys (o_inputs (g_object g o)) l ->
    given_args g batch keys args [(id, ArgValue (IObject l))].

(** A key of several fields has at most one field to go to in a oneof input object. *)
Definition one_choice (g : graph) (batch : bool) (keys : list item) (args : list nat) : Prop :=
  forall id o a b oa ob, List.length keys <> 1 -> In id args -> t_def (i_ty (g_input g id)) = DInput o ->
    o_oneof (g_object g o) = true ->
    In a (o_inputs (g_object g o)) -> In b (o_inputs (g_object g o)) ->
    t_def (i_ty (g_input g a)) = DInput oa -> t_def (i_ty (g_input g b)) = DInput ob ->
    depth_for batch (i_ty (g_input g a)) -> depth_for batch (i_ty (g_input g b)) -> a = b.

(** Input objects that take one of their fields are for arguments only, and for flat keys that
    can't be null. *)
Definition oneof_on_top (g : graph) (keys : list item) (args : list nat) : Prop :=
  (forall o id o', In id (o_inputs (g_object g o)) -> t_def (i_ty (g_input g id)) = DInput o' -> o_oneof (g_object g o') = false) /\
  (forall id o k, In id args -> t_def (i_ty (g_input g id)) = DInput o -> o_oneof (g_object g o) = true -> In k keys ->
     i_sub k = [] /\ is_non_null (t_wrap (f_ty (g_field g (i_field k)))) = true).

(** The objects to look up have the key. *)
Definition entity_at (g : graph) (leaf : def -> out -> Prop) (ps : list part) (fuel : nat) (r : list req) (keys : list item) (v : val) : Prop :=
  exists t, rep ps v t /\ distinct t /\ depth t < fuel /\ entity_of g leaf r keys t.
Definition looked_up (g : graph) (leaf : def -> out -> Prop) (ps : list part) (fuel : nat) (r : list req) (keys : list item) (batch : bool) (who : parents) : Prop :=
  match who with
  | POne v => batch = false /\ entity_at g leaf ps fuel r keys v
  | PMany l => batch = true /\ Forall (entity_at g leaf ps fuel r keys) l
  end.
