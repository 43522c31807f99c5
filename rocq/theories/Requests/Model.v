(** How a GraphQL request is read from the body of a POST and from the query string of a GET.
    crates/engine/operation/src/request/{mod.rs,extensions.rs}, crates/engine/src/execution/request/mod.rs:140-185. *)
From Coq Require Import List Bool Ascii String NArith ZArith.
Import ListNotations.
Open Scope string_scope.
Open Scope list_scope.

(** JSON, as sonic_rs and serde_json hand it to serde. Numbers with a fraction or an exponent are kept as text. *)
Inductive json :=
| JNull
| JBool (b : bool)
| JInt (z : Z)
| JFloat (text : string)
| JStr (s : string)
| JArr (l : list json)
| JObj (l : list (string * json)).

(** crates/engine/operation/src/request/extensions.rs:10-17 *)
Record persisted := { pq_version : N; pq_hash : list N }.

(** crates/engine/operation/src/request/mod.rs:231-243 Request. The variables are in the order their names first appear;
    the code has a BTreeMap, which is sorted. *)
Record request := {
  rq_query : option string;
  rq_operation : option string;
  rq_doc : option string;
  rq_variables : list (string * json);
  rq_persisted : option persisted
}.

Definition bind {A B} (o : option A) (f : A -> option B) : option B := match o with Some a => f a | None => None end.

(** The values of the members of this name. *)
Definition values {A} (k : string) (l : list (string * A)) : list A :=
  map snd (filter (fun kv => String.eqb (fst kv) k) l).

(** A field of a struct with a derived Deserialize and #[serde(default)]: members of other names are ignored, a second one
    of this name is an error. *)
Definition field {A B} (k : string) (l : list (string * A)) (read : A -> option B) (default : B) : option B :=
  match values k l with
  | [] => Some default
  | [v] => read v
  | _ => None
  end.

(** The same, without a default. *)
Definition required {A B} (k : string) (l : list (string * A)) (read : A -> option B) : option B :=
  match values k l with
  | [v] => read v
  | _ => None
  end.

(** Option<String> *)
Definition read_string (v : json) : option (option string) :=
  match v with
  | JNull => Some None
  | JStr s => Some (Some s)
  | _ => None
  end.

(** BTreeMap::insert *)
Fixpoint insert (k : string) (v : json) (m : list (string * json)) : list (string * json) :=
  match m with
  | [] => [(k, v)]
  | (k', v') :: rest => if String.eqb k' k then (k, v) :: rest else (k', v') :: insert k v rest
  end.

(** crates/engine/operation/src/request/mod.rs:270-276 RawVariables: Option<BTreeMap<String, Value>>. *)
Definition read_variables (v : json) : option (list (string * json)) :=
  match v with
  | JNull => Some []
  | JObj l => Some (fold_left (fun m kv => insert (fst kv) (snd kv) m) l [])
  | _ => None
  end.

(** u32 *)
Definition read_u32 (v : json) : option N :=
  match v with
  | JInt z => if (Z.leb 0 z && Z.ltb z 4294967296)%Z then Some (Z.to_N z) else None
  | _ => None
  end.

(** A hexadecimal digit, in upper or lower case. *)
Definition hex_value (c : ascii) : option N :=
  let n := N_of_ascii c in
  if (N.leb 48 n && N.leb n 57)%N then Some (n - 48)%N
  else if (N.leb 65 n && N.leb n 70)%N then Some (n - 55)%N
  else if (N.leb 97 n && N.leb n 102)%N then Some (n - 87)%N
  else None.

(** serde_with::hex::Hex *)
Fixpoint hex (s : string) : option (list N) :=
  match s with
  | EmptyString => Some []
  | String a (String b rest) =>
    bind (hex_value a) (fun x => bind (hex_value b) (fun y => bind (hex rest) (fun l => Some ((16 * x + y)%N :: l))))
  | _ => None
  end.

Definition read_hex (v : json) : option (list N) := match v with JStr s => hex s | _ => None end.

(** Option<PersistedQueryRequestExtension>, crates/engine/operation/src/request/extensions.rs:10-17. *)
Definition read_persisted (v : json) : option (option persisted) :=
  match v with
  | JNull => Some None
  | JObj l =>
    bind (required "version" l read_u32) (fun n =>
    bind (required "sha256Hash" l read_hex) (fun h => Some (Some {| pq_version := n; pq_hash := h |})))
  | _ => None
  end.

(** crates/engine/operation/src/request/extensions.rs:3-8 RequestExtensions. *)
Definition read_extensions (v : json) : option (option persisted) :=
  match v with
  | JObj l => field "persistedQuery" l read_persisted None
  | _ => None
  end.

(** crates/engine/operation/src/request/mod.rs:231-243 Request. A sequence in the place of an object is refused here. *)
Definition read_request (v : json) : option request :=
  match v with
  | JObj l =>
    bind (field "query" l read_string None) (fun q =>
    bind (field "operationName" l read_string None) (fun o =>
    bind (field "doc_id" l read_string None) (fun d =>
    bind (field "variables" l read_variables []) (fun vs =>
    bind (field "extensions" l read_extensions None) (fun e =>
    Some {| rq_query := q; rq_operation := o; rq_doc := d; rq_variables := vs; rq_persisted := e |})))))
  | _ => None
  end.

Fixpoint read_all (l : list json) : option (list request) :=
  match l with
  | [] => Some []
  | v :: rest => bind (read_request v) (fun r => bind (read_all rest) (fun rs => Some (r :: rs)))
  end.

Inductive batch := Single (r : request) | Batch (l : list request).

(** crates/engine/operation/src/request/mod.rs:17-229 BatchRequest: a sequence is a batch, all else is one request. *)
Definition read_batch (v : json) : option batch :=
  match v with
  | JArr l => bind (read_all l) (fun rs => Some (Batch rs))
  | _ => bind (read_request v) (fun r => Some (Single r))
  end.

(** * Query strings *)

(** form_urlencoded: percent-decoding with a plus sign for a space. Bytes that are not UTF-8 are kept here. *)
Fixpoint decode (s : string) : string :=
  match s with
  | EmptyString => ""
  | String c rest =>
    if Ascii.eqb c "+" then String " " (decode rest)
    else if Ascii.eqb c "%" then
      match rest with
      | String a (String b rest') =>
        match hex_value a, hex_value b with
        | Some x, Some y => String (ascii_of_N (16 * x + y)) (decode rest')
        | _, _ => String "%" (decode rest)
        end
      | _ => String "%" (decode rest)
      end
    else String c (decode rest)
  end.

(** str::split on a character. *)
Fixpoint split (sep : ascii) (s : string) : list string :=
  match s with
  | EmptyString => [""]
  | String c rest =>
    if Ascii.eqb c sep then "" :: split sep rest
    else match split sep rest with
         | part :: parts => String c part :: parts
         | [] => [String c ""]
         end
  end.

(** str::split at the first sign of equality; the value is empty without one. *)
Fixpoint cut (s : string) : string * string :=
  match s with
  | EmptyString => ("", "")
  | String c rest => if Ascii.eqb c "=" then ("", rest) else let '(k, v) := cut rest in (String c k, v)
  end.

(** form_urlencoded::parse: empty parts are skipped. *)
Definition parse_query (s : string) : list (string * string) :=
  map (fun part => let '(k, v) := cut part in (decode k, decode v))
    (filter (fun part => negb (String.eqb part "")) (split "&" s)).

(** crates/engine/operation/src/request/mod.rs:335-381 QueryParamsRequest and QueryParams. [parse]: sonic_rs::from_str, up
    to the types. *)
Definition read_params (parse : string -> option json) (l : list (string * string)) : option request :=
  bind (field "query" l (fun s => Some (Some s)) None) (fun q =>
  bind (field "doc_id" l (fun s => Some (Some s)) None) (fun d =>
  bind (field "variables" l (fun s => bind (parse s) read_variables) []) (fun vs =>
  bind (field "operation_name" l (fun s => Some (Some s)) None) (fun o =>
  bind (field "extensions" l (fun s => bind (parse s) read_extensions) None) (fun e =>
  Some {| rq_query := q; rq_operation := o; rq_doc := d; rq_variables := vs; rq_persisted := e |}))))).

(** crates/engine/src/execution/request/mod.rs:140-185 extract_well_formed_graphql_over_http_request. CBOR bodies give the
    same tree. The body has been read. *)
Definition extract (parse : string -> option json) (post : bool) (body : string) (query : option string) : option batch :=
  if post then bind (parse body) read_batch
  else bind (read_params parse (parse_query (match query with Some q => q | None => "" end))) (fun r => Some (Single r)).
