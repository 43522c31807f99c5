(** How directives of a subgraph are recognised by name, given its [@link]s
    (crates/graphql-composition/src/ingest_subgraph/directives/match_name.rs, ingest_subgraph/schema_definitions/link.rs,
    subgraphs/linked_schemas.rs, subgraphs/directives/link.rs, subgraphs/top.rs).

    A name is a list of characters.  Simplifications: a URL comes with its path segments ([None]: it isn't one, or has none)
    and with whether its scheme is [file]; maps are lists with the newest entry first; identifiers of linked schemas are
    their positions; diagnostics and the registration of extensions (link.rs:120-185) aren't modelled. *)
From Coq Require Import List Bool Ascii String PeanoNat NArith.
Import ListNotations.

Definition name := list ascii.
Definition L (s : string) : name := list_ascii_of_string s.

Definition name_dec : forall a b : name, {a = b} + {a <> b} := list_eq_dec ascii_dec.
Definition eqn (a b : name) : bool := if name_dec a b then true else false.

(** An entry of [import]: a string, or an object with [name] and [as] (link.rs:66-118). *)
Record import := { i_name : name; i_as : option name }.

Record link := {
  l_url : name;
  l_file : bool;
  l_segments : option (list name);
  l_as : option name;
  l_imports : list import
}.

(** ** URLs (subgraphs/directives/link.rs:10-98) *)

Definition in_range (lo hi : string) (c : ascii) : bool :=
  match lo, hi with
  | String lo _, String hi _ => N.leb (N_of_ascii lo) (N_of_ascii c) && N.leb (N_of_ascii c) (N_of_ascii hi)
  | _, _ => false
  end.
Definition is_digit := in_range "0" "9".
Definition is_alpha (c : ascii) : bool := in_range "a" "z" c || in_range "A" "Z" c.
Definition is_char (x c : ascii) : bool := if ascii_dec c x then true else false.

Definition is_valid_version (s : name) : bool :=
  match s with
  | v :: d :: s => is_char "v" v && is_digit d && forallb (fun c => is_digit c || is_char "." c) s
  | _ => false
  end.

Definition is_valid_graphql_name (s : name) : bool :=
  match s with
  | [] => false
  | c :: s => (is_alpha c || is_char "_" c) && forallb (fun c => is_alpha c || is_digit c || is_char "_" c) s
  end.

(** The name of [parse_link_url], from the segments in reverse. *)
Definition name_of_segments (file : bool) (rev_segments : list name) : option name :=
  match rev_segments with
  | [] => None
  | s :: rest =>
    match (if file && eqn s (L "build") then rest else rev_segments) with
    | [] => None
    | s :: rest =>
      if is_valid_version s then
        match rest with
        | n :: _ => if is_valid_graphql_name n then Some n else None
        | [] => None
        end
      else if is_valid_graphql_name s then Some s
      else None
    end
  end.

(** [LinkedSchemaRecord::namespace] (linked_schemas.rs:32-36). *)
Definition namespace (l : link) : option name :=
  match l_as l with
  | Some a => Some a
  | None => match l_segments l with Some segments => name_of_segments (l_file l) (rev segments) | None => None end
  end.

(** ** Specifications (subgraphs/top.rs:79-117), in the order of the enum *)

Inductive spec := V1 | V2 | Composite.

Definition rank (s : spec) : nat := match s with V1 => 0 | V2 => 1 | Composite => 2 end.
Definition max_spec (a b : spec) : spec := if Nat.ltb (rank a) (rank b) then b else a.

Fixpoint starts_with (p s : name) : bool :=
  match p, s with
  | [], _ => true
  | c :: p, d :: s => is_char c d && starts_with p s
  | _ :: _, [] => false
  end.
Fixpoint contains (p s : name) : bool :=
  starts_with p s || match s with [] => false | _ :: s => contains p s end.

Definition from_url (url : name) : option spec :=
  if contains (L "dev/federation/v2") url then Some V2
  else if eqn url (L "https://specs.grafbase.com/composite-schemas/v1") then Some Composite
  else None.

(** ** The tables of a subgraph (linked_schemas.rs) *)

Record tables := {
  schemas : list (option spec);
  namespaces : list (name * nat);
  imported : list (name * (nat * name));
  federation_spec : spec
}.

Definition no_tables : tables := {| schemas := []; namespaces := []; imported := []; federation_spec := V1 |}.

(** [trim_start_matches("@")]. *)
Fixpoint trim (s : name) : name :=
  match s with
  | c :: r => if is_char "@" c then trim r else s
  | [] => []
  end.

(** link.rs:69, 85-103 and [final_name] (linked_schemas.rs:46-50). *)
Definition original (i : import) : name := trim (i_name i).
Definition final_name (i : import) : name := match i_as i with Some a => trim a | None => original i end.

(** [ingest_link_directive] (link.rs:22-118), [push_linked_schema] and [push_linked_definition] (linked_schemas.rs:77-121). *)
Definition push (l : link) (t : tables) : tables :=
  let k := List.length (schemas t) in
  {| schemas := schemas t ++ [from_url (l_url l)];
     namespaces := match namespace l with Some ns => (ns, k) :: namespaces t | None => namespaces t end;
     imported := rev (map (fun i => (final_name i, (k, original i))) (l_imports l)) ++ imported t;
     federation_spec := match from_url (l_url l) with Some s => max_spec (federation_spec t) s | None => federation_spec t end |}.

Definition ingest (links : list link) : tables := fold_left (fun t l => push l t) links no_tables.

Fixpoint find {B} (n : name) (l : list (name * B)) : option B :=
  match l with
  | [] => None
  | (m, b) :: l => if name_dec n m then Some b else find n l
  end.

(** ** Names of directives (match_name.rs) *)

Inductive known :=
| Deprecated | SpecifiedBy | OneOf | Link | Cost | ListSize
| Lookup | Derive | Require | Is | KeyFromCompositeSchemas | Internal
| Authenticated | ComposeDirective | Extends | External | Inaccessible | InterfaceObject | Key | Override | Policy | Provides
| Requires | RequiresScopes | Shareable | Tag.

Inductive matched :=
| NoMatch
| Qualified (schema : nat) (n : name)
| Imported (schema : nat) (n : name)
| LocallyDefined
| Known (d : known).

(** match_name.rs:126-141 *)
Definition composite_schemas_directive (n : name) : matched :=
  if eqn n (L "lookup") then Known Lookup
  else if eqn n (L "key") then Known KeyFromCompositeSchemas
  else if eqn n (L "require") then Known Require
  else if eqn n (L "shareable") then Known Shareable
  else if eqn n (L "is") then Known Is
  else if eqn n (L "derive") then Known Derive
  else if eqn n (L "external") then Known External
  else if eqn n (L "override") then Known Override
  else if eqn n (L "provides") then Known Provides
  else if eqn n (L "inaccessible") then Known Inaccessible
  else if eqn n (L "internal") then Known Internal
  else NoMatch.

(** match_name.rs:143-161 *)
Definition federation_directive (n : name) : matched :=
  if eqn n (L "authenticated") then Known Authenticated
  else if eqn n (L "composeDirective") then Known ComposeDirective
  else if eqn n (L "extends") then Known Extends
  else if eqn n (L "external") then Known External
  else if eqn n (L "inaccessible") then Known Inaccessible
  else if eqn n (L "interfaceObject") then Known InterfaceObject
  else if eqn n (L "key") then Known Key
  else if eqn n (L "override") then Known Override
  else if eqn n (L "policy") then Known Policy
  else if eqn n (L "provides") then Known Provides
  else if eqn n (L "requires") then Known Requires
  else if eqn n (L "requiresScopes") then Known RequiresScopes
  else if eqn n (L "shareable") then Known Shareable
  else if eqn n (L "tag") then Known Tag
  else NoMatch.

(** match_name.rs:106-115 *)
Definition builtin (n : name) : option known :=
  if eqn n (L "link") then Some Link
  else if eqn n (L "deprecated") then Some Deprecated
  else if eqn n (L "specifiedBy") then Some SpecifiedBy
  else if eqn n (L "oneOf") then Some OneOf
  else if eqn n (L "cost") then Some Cost
  else if eqn n (L "listSize") then Some ListSize
  else None.

(** [split_once("__")]. *)
Fixpoint split_once (s : name) : option (name * name) :=
  match s with
  | [] => None
  | c :: r =>
    match r with
    | d :: r' =>
      if is_char "_" c && is_char "_" d then Some ([], r')
      else match split_once r with Some (a, b) => Some (c :: a, b) | None => None end
    | [] => None
    end
  end.

(** [match_directive_name_inner] (match_name.rs:56-124). *)
Definition match_inner (t : tables) (virtual : bool) (n : name) (schema : option nat) : matched :=
  match schema with
  | Some k =>
    match nth_error (schemas t) k with
    | Some (Some V2) => federation_directive n
    | Some (Some Composite) => composite_schemas_directive n
    | _ => Qualified k n
    end
  | None =>
    match find n (imported t) with
    | Some (k, o) =>
      match nth_error (schemas t) k with
      | Some (Some (V2 | V1)) => federation_directive o
      | Some (Some Composite) => composite_schemas_directive o
      | _ => Imported k o
      end
    | None =>
      match builtin n with
      | Some d => Known d
      | None =>
        match federation_spec t with
        | V2 => NoMatch
        | _ => if virtual then NoMatch else federation_directive n
        end
      end
    end
  end.

(** [match_directive_name] (match_name.rs:22-54).  [defs]: directives the subgraph defines; [virtual]: it has no URL. *)
Definition match_directive_name (t : tables) (virtual : bool) (defs : list name) (n : name) : matched :=
  let '(schema, n) :=
    match split_once n with
    | Some (ns, n) => (find ns (namespaces t), n)
    | None => (None, n)
    end in
  match match_inner t virtual n schema with
  | NoMatch => if existsb (eqn n) defs then LocallyDefined else NoMatch
  | other => other
  end.
