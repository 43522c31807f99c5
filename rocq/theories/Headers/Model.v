(** Header rules: the headers of a subgraph request (C34, C43).

    Modelled code: crates/engine/src/execution/request/header_rule.rs,
    crates/engine/src/execution/request/mod.rs 118-123,
    crates/engine/src/execution/operation/context.rs 34-46,
    crates/engine/src/prepare/operation_plan/query_modifications.rs 187-199.

    A header map is the list of its entries, names in lower case; the order in
    which the http crate iterates over different names isn't modelled (it only
    matters for the order of values that a pattern rule collects under one name).
    Patterns are predicates on names. Headers that the gateway sets by itself
    afterwards (content-type, accept, content-length) are not part of this. *)

From Coq Require Import List Bool String Ascii NArith.
Import ListNotations.
Local Open Scope string_scope.

Definition header_map := list (string * string).

(** *** http::HeaderName and http::HeaderValue *)

Definition in_range (lo hi : N) (c : ascii) : bool := (N.leb lo (N_of_ascii c) && N.leb (N_of_ascii c) hi)%bool.

(** The table HEADER_CHARS of the http crate: tokens, in lower case. *)
Definition name_char (c : ascii) : option ascii :=
  if in_range 65 90 c then Some (ascii_of_N (N_of_ascii c + 32))
  else if (in_range 97 122 c || in_range 48 57 c)%bool then Some c
  else if existsb (Ascii.eqb c) (list_ascii_of_string "!#$%&'*+-.^_`|~") then Some c
  else None.

Fixpoint name_chars (s : string) : option string :=
  match s with
  | "" => Some ""
  | String c r => match name_char c, name_chars r with Some c', Some r' => Some (String c' r') | _, _ => None end
  end.

(** HeaderName::from_str and from_bytes. *)
Definition header_name (s : string) : option string :=
  if (N.eqb (N.of_nat (length s)) 0 || N.leb 65536 (N.of_nat (length s)))%bool then None else name_chars s.

Fixpoint value_chars (s : string) : bool :=
  match s with "" => true | String c r => ((in_range 32 126 c || Ascii.eqb c "009") && value_chars r)%bool end.

(** HeaderValue::from_str. *)
Definition header_value (s : string) : option string := if value_chars s then Some s else None.

(** *** http::HeaderMap *)

Definition append (m : header_map) (n v : string) : header_map := (m ++ [(n, v)])%list.
Definition remove (m : header_map) (n : string) : header_map := filter (fun e => negb (fst e =? n)) m.
Definition insert (m : header_map) (n v : string) : header_map := append (remove m n) n v.
Definition get_all (m : header_map) (n : string) : list string := map snd (filter (fun e => fst e =? n) m).
Definition get (m : header_map) (n : string) : option string := hd_error (get_all m n).

(** *** Rules *)

Inductive name_or_pattern := Name (n : string) | Pattern (matches : string -> bool).

Inductive rule :=
| Forward (source : name_or_pattern) (default rename : option string)
| Insert (n v : string)
| Remove (source : name_or_pattern)
| RenameDuplicate (n rename : string) (default : option string).

(** header_rule.rs 161-190. *)
Definition deny_list : list string :=
  ["accept"; "accept-charset"; "accept-encoding"; "accept-ranges"; "content-length"; "content-type"; "connection";
   "keep-alive"; "proxy-authenticate"; "proxy-authorization"; "te"; "trailer"; "transfer-encoding"; "upgrade"; "origin";
   "host"; "sec-websocket-version"; "sec-websocket-key"; "sec-websocket-accept"; "sec-websocket-protocol";
   "sec-websocket-extensions"].

Definition find_matching_denied_header (n : string) : option string := find (fun d => d =? n) deny_list.
Definition is_header_denied (n : string) : bool := match find_matching_denied_header n with Some _ => true | None => false end.

Definition option_and_then {A B} (o : option A) (f : A -> option B) : option B := match o with Some x => f x | None => None end.

(** header_rule.rs 30-57. *)
Definition handle_rename_duplicate (client : header_map) (name rename : string) (default : option string) (m : header_map) : header_map :=
  match header_name name with
  | None => m
  | Some name =>
      match header_name rename with
      | None => m
      | Some rename =>
          if is_header_denied rename then m
          else
            let value := match get client name with Some v => Some v | None => option_and_then default header_value end in
            match value with
            | Some v => append (append m name v) rename v
            | None => m
            end
      end
  end.

(** header_rule.rs 59-77. Removing a string that isn't a header name does nothing. *)
Definition handle_remove (source : name_or_pattern) (m : header_map) : header_map :=
  match source with
  | Pattern p =>
      let delete_list := filter p (map fst m) in
      fold_left remove delete_list m
  | Name n => match header_name n with Some n => remove m n | None => m end
  end.

(** header_rule.rs 79-90. *)
Definition handle_insert (n v : string) (m : header_map) : header_map :=
  match header_name n, header_value v with
  | Some n, Some v => if is_header_denied n then m else append m n v
  | _, _ => m
  end.

(** header_rule.rs 104-113. *)
Definition forward_one (rename : option string) (m : header_map) (e : string * string) : header_map :=
  match option_and_then rename header_name with
  | Some r => append m r (snd e)
  | None => append m (fst e) (snd e)
  end.

(** header_rule.rs 92-155. *)
Definition handle_forward (client : header_map) (source : name_or_pattern) (default rename : option string)
    (m : header_map) : header_map :=
  match source with
  | Pattern p =>
      let filtered := filter (fun e => p (fst e)) (filter (fun e => negb (is_header_denied (fst e))) client) in
      fold_left (forward_one rename) filtered m
  | Name n =>
      match header_name n with
      | None => m
      | Some n =>
          let m := remove m n in
          let found := get_all client n in
          match (match rename with Some r => header_name r | None => Some n end) with
          | None => m
          | Some n =>
              if is_header_denied n then m
              else
                let default := option_and_then default header_value in
                let m := fold_left (fun m v => append m n v) found m in
                match default, found with
                | Some v, [] => insert m n v
                | _, _ => m
                end
          end
      end
  end.

(** header_rule.rs 9-28. *)
Definition apply_rule (client : header_map) (m : header_map) (r : rule) : header_map :=
  match r with
  | Forward source default rename => handle_forward client source default rename m
  | Insert n v => handle_insert n v m
  | Remove source => handle_remove source m
  | RenameDuplicate n rename default => handle_rename_duplicate client n rename default m
  end.

Definition apply_header_rules (client : header_map) (rules : list rule) (m : header_map) : header_map :=
  fold_left (apply_rule client) rules m.

(** The headers that an authorization extension returns for the default ones
    (query_modifications.rs 187-194); any, without the denied ones. *)
Definition extension_headers (returned : header_map) : header_map :=
  let denied := flat_map (fun n => match find_matching_denied_header n with Some d => [d] | None => [] end) (map fst returned) in
  fold_left remove denied returned.

(** request/mod.rs 118-123, then context.rs 34-46. *)
Definition subgraph_headers (client : header_map) (default_rules : list rule) (extension : option (header_map -> header_map))
    (subgraph_rules : list rule) : header_map :=
  let default := apply_header_rules client default_rules [] in
  let start := match extension with Some f => extension_headers (f default) | None => default end in
  apply_header_rules client subgraph_rules start.
