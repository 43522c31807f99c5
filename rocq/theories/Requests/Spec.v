(** What a request says, by the GraphQL-over-HTTP specification, and how it is written. *)
From Coq Require Import List Bool Ascii String NArith ZArith Sorting.Permutation.
From Verif.Requests Require Import Model.
Import ListNotations.
Open Scope string_scope.
Open Scope list_scope.

(** The member [k] occurs once, with the value [v]. *)
Definition Once {A} (k : string) (l : list (string * A)) (v : A) : Prop :=
  exists before after, l = before ++ (k, v) :: after /\ ~ In k (map fst before) /\ ~ In k (map fst after).

(** The value of an optional member. *)
Definition Optional {A B} (k : string) (l : list (string * A)) (Reads : A -> B -> Prop) (default b : B) : Prop :=
  (~ In k (map fst l) /\ b = default) \/ (exists v, Once k l v /\ Reads v b).

(** The value [v] is the last one for the name [k]. *)
Definition Last (k : string) (l : list (string * json)) (v : json) : Prop :=
  exists before after, l = before ++ (k, v) :: after /\ ~ In k (map fst after).

Definition SaysText (v : json) (o : option string) : Prop :=
  (v = JNull /\ o = None) \/ (exists s, v = JStr s /\ o = Some s).

Definition SaysVariables (v : json) (m : list (string * json)) : Prop :=
  (v = JNull /\ m = []) \/
  (exists l, v = JObj l /\ NoDup (map fst m) /\ forall k x, In (k, x) m <-> Last k l x).

Definition digits : list (ascii * N) := [
  ("0", 0); ("1", 1); ("2", 2); ("3", 3); ("4", 4); ("5", 5); ("6", 6); ("7", 7); ("8", 8); ("9", 9);
  ("a", 10); ("b", 11); ("c", 12); ("d", 13); ("e", 14); ("f", 15);
  ("A", 10); ("B", 11); ("C", 12); ("D", 13); ("E", 14); ("F", 15)]%char%N.

(** Bytes in hexadecimal. *)
Inductive Hex : string -> list N -> Prop :=
| hex_nil : Hex "" []
| hex_byte a b x y s l : In (a, x) digits -> In (b, y) digits -> Hex s l -> Hex (String a (String b s)) ((16 * x + y)%N :: l).

Definition SaysPersisted (v : json) (o : option persisted) : Prop :=
  (v = JNull /\ o = None) \/
  (exists l n s h, v = JObj l /\ Once "version" l (JInt (Z.of_N n)) /\ (n < 4294967296)%N /\
     Once "sha256Hash" l (JStr s) /\ Hex s h /\ o = Some {| pq_version := n; pq_hash := h |}).

Definition SaysExtensions (v : json) (o : option persisted) : Prop :=
  exists l, v = JObj l /\ Optional "persistedQuery" l SaysPersisted None o.

(** A request as a JSON object. *)
Definition Says (v : json) (r : request) : Prop :=
  exists l, v = JObj l /\
    Optional "query" l SaysText None (rq_query r) /\
    Optional "operationName" l SaysText None (rq_operation r) /\
    Optional "doc_id" l SaysText None (rq_doc r) /\
    Optional "variables" l SaysVariables [] (rq_variables r) /\
    Optional "extensions" l SaysExtensions None (rq_persisted r).

(** A request as parameters, where the one for the name of the operation is called [name]. *)
Definition Given (parse : string -> option json) (name : string) (l : list (string * string)) (r : request) : Prop :=
  Optional "query" l (fun s o => o = Some s) None (rq_query r) /\
  Optional name l (fun s o => o = Some s) None (rq_operation r) /\
  Optional "doc_id" l (fun s o => o = Some s) None (rq_doc r) /\
  Optional "variables" l (fun s m => exists v, parse s = Some v /\ SaysVariables v m) [] (rq_variables r) /\
  Optional "extensions" l (fun s o => exists v, parse s = Some v /\ SaysExtensions v o) None (rq_persisted r).

(** The same request: the variables are a map. *)
Definition Same (a b : request) : Prop :=
  rq_query a = rq_query b /\ rq_operation a = rq_operation b /\ rq_doc a = rq_doc b /\ rq_persisted a = rq_persisted b /\
  Permutation (rq_variables a) (rq_variables b).

(** Writing a request. *)

Definition digit (n : N) : ascii := if (N.ltb n 10)%N then ascii_of_N (48 + n) else ascii_of_N (87 + n).

Fixpoint write_hex (l : list N) : string :=
  match l with
  | [] => ""
  | n :: l => String (digit (N.div n 16)) (String (digit (N.modulo n 16)) (write_hex l))
  end.

Definition write_opt {A} (k : string) (write : A -> json) (o : option A) : list (string * json) :=
  match o with Some a => [(k, write a)] | None => [] end.

Definition write_persisted (p : persisted) : json :=
  JObj [("persistedQuery", JObj [("version", JInt (Z.of_N (pq_version p))); ("sha256Hash", JStr (write_hex (pq_hash p)))])].

Definition write_body (r : request) : json :=
  JObj (write_opt "query" JStr (rq_query r) ++ write_opt "operationName" JStr (rq_operation r) ++
        write_opt "doc_id" JStr (rq_doc r) ++ [("variables", JObj (rq_variables r))] ++
        write_opt "extensions" write_persisted (rq_persisted r)).

(** Requests that can be written: one value for a variable, numbers in their ranges. *)
Definition Writable (r : request) : Prop :=
  NoDup (map fst (rq_variables r)) /\
  forall p, rq_persisted r = Some p -> (pq_version p < 4294967296)%N /\ Forall (fun n => (n < 256)%N) (pq_hash p).

(** Letters, digits and the like need no escape in a query string. *)
Definition plain (c : ascii) : bool :=
  let n := N_of_ascii c in
  ((N.leb 48 n && N.leb n 57) || (N.leb 65 n && N.leb n 90) || (N.leb 97 n && N.leb n 122) ||
   N.eqb n 42 || N.eqb n 45 || N.eqb n 46 || N.eqb n 95)%N.

Fixpoint encode (s : string) : string :=
  match s with
  | EmptyString => ""
  | String c s =>
    if plain c then String c (encode s)
    else if Ascii.eqb c " " then String "+" (encode s)
    else String "%" (String (digit (N.div (N_of_ascii c) 16)) (String (digit (N.modulo (N_of_ascii c) 16)) (encode s)))
  end.

Fixpoint write_query (l : list (string * string)) : string :=
  match l with
  | [] => ""
  | [(k, v)] => (encode k ++ "=" ++ encode v)%string
  | (k, v) :: l => (encode k ++ "=" ++ encode v ++ "&" ++ write_query l)%string
  end.
