(** What the directives of a subgraph mean, after the specification of [@link] (https://specs.apollo.dev/link/v1.0) and the
    comment of [match_directive_name] (match_name.rs:6-21). *)
From Coq Require Import List Bool Ascii String PeanoNat.
From Verif.Links Require Import Model.
Import ListNotations.

Definition at_sign : name := L "@".
Definition sep : name := L "__".

Definition plain (n : name) : Prop := forall a b, n <> a ++ sep ++ b.

(** ** Names of linked schemas *)

Definition digits : name := L "0123456789".
Definition letters : name := L "abcdefghijklmnopqrstuvwxyzABCDEFGHIJKLMNOPQRSTUVWXYZ".

Definition version (s : name) : Prop :=
  exists d r, s = L "v" ++ d :: r /\ In d digits /\ forall c, In c r -> In c (L "." ++ digits).
Definition graphql_name (s : name) : Prop :=
  exists c r, s = c :: r /\ In c (L "_" ++ letters) /\ forall c, In c r -> In c (L "_" ++ letters ++ digits).

Inductive named_by (segments : list name) (n : name) : Prop :=
| by_last pre : segments = pre ++ [n] -> ~ version n -> graphql_name n -> named_by segments n
| by_version pre v : segments = pre ++ [n; v] -> version v -> graphql_name n -> named_by segments n.

(** Files may end with a directory [build]. *)
Definition url_name (l : link) (n : name) : Prop :=
  exists segments, l_segments l = Some segments
  /\ ((l_file l = true /\ exists segments', segments = segments' ++ [L "build"] /\ named_by segments' n)
      \/ ((l_file l = false \/ forall segments', segments <> segments' ++ [L "build"]) /\ named_by segments n)).

(** The prefix of a linked schema. *)
Definition prefix_of (l : link) (ns : name) : Prop := l_as l = Some ns \/ l_as l = None /\ url_name l ns.

(** ** Imports *)

(** [i] brings the directive [o] into scope as [n]. *)
Definition brings (i : import) (o n : name) : Prop :=
  i_name i = at_sign ++ o /\ hd_error o <> hd_error at_sign /\ hd_error n <> hd_error at_sign
  /\ match i_as i with Some a => a = at_sign ++ n | None => n = o end.

Definition imports_of (links : list link) (k : nat) (i : import) : Prop :=
  exists l, nth_error links k = Some l /\ In i (l_imports l).

(** [n] is brought into scope at most once, and no type is imported under this name. *)
Definition unambiguous (links : list link) (n : name) : Prop :=
  (forall k i, imports_of links k i -> (exists o n', brings i o n') \/ (match i_as i with Some a => a | None => i_name i end <> n /\ hd_error (match i_as i with Some a => a | None => i_name i end) <> hd_error at_sign))
  /\ forall k i o k' i' o', imports_of links k i -> imports_of links k' i' -> brings i o n -> brings i' o' n -> k = k' /\ o = o'.

Definition unambiguous_prefix (links : list link) (ns : name) : Prop :=
  forall k l k' l', nth_error links k = Some l -> nth_error links k' = Some l' -> prefix_of l ns -> prefix_of l' ns -> k = k'.

(** ** Directives *)

Definition of_federation : list (string * known) :=
  [("authenticated", Authenticated); ("composeDirective", ComposeDirective); ("extends", Extends); ("external", External);
   ("inaccessible", Inaccessible); ("interfaceObject", InterfaceObject); ("key", Key); ("override", Override); ("policy", Policy);
   ("provides", Provides); ("requires", Requires); ("requiresScopes", RequiresScopes); ("shareable", Shareable); ("tag", Tag)]%string.
Definition of_composite : list (string * known) :=
  [("lookup", Lookup); ("key", KeyFromCompositeSchemas); ("require", Require); ("shareable", Shareable); ("is", Is); ("derive", Derive);
   ("external", External); ("override", Override); ("provides", Provides); ("inaccessible", Inaccessible); ("internal", Internal)]%string.
Definition of_graphql : list (string * known) :=
  [("deprecated", Deprecated); ("specifiedBy", SpecifiedBy); ("oneOf", OneOf); ("link", Link); ("cost", Cost); ("listSize", ListSize)]%string.

Definition is_federation (l : link) : Prop := exists a b, l_url l = a ++ L "dev/federation/v2" ++ b.
Definition is_composite (l : link) : Prop := l_url l = L "https://specs.grafbase.com/composite-schemas/v1".

(** What a directive [o] of the linked schema [k] is; [other] for schemas that aren't part of federation. *)
Inductive denotes (l : link) (o : name) (other : matched) : matched -> Prop :=
| d_federation s d : is_federation l -> In (s, d) of_federation -> o = L s -> denotes l o other (Known d)
| d_composite s d : is_composite l -> In (s, d) of_composite -> o = L s -> denotes l o other (Known d)
| d_other : ~ is_federation l -> ~ is_composite l -> denotes l o other other.
