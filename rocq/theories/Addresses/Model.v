(** Addresses in the object storage: trusted documents and graphs
    (crates/federated-server/src/engine/trusted_documents_client.rs:111-118,
    crates/federated-server/src/graph/loader/object_storage.rs:122-145).

    Texts are lists of bytes.  [set_path] is a function of the url crate, modelled after the URL standard (path state, for http and
    https): tabs and line ends are removed, both slashes separate segments, segments of dots are resolved, and a few characters are
    escaped.  An address is the list of its path's segments; host and scheme are those of the configured storage. *)
From Coq Require Import List Bool Ascii String NArith.
Import ListNotations.
Open Scope char_scope.

Definition text := list ascii.
Definition T (s : string) : text := list_ascii_of_string s.

(** ** [Url::set_path] *)

Definition is_sep (c : ascii) : bool := Ascii.eqb c "/" || Ascii.eqb c "\".

(** Tab, line feed and carriage return. *)
Definition is_ignored (c : ascii) : bool :=
  Ascii.eqb c "009" || Ascii.eqb c "010" || Ascii.eqb c "013".

(** The path percent-encode set; a percent sign isn't in it. *)
Definition is_escaped (c : ascii) : bool :=
  let n := N_of_ascii c in
  (N.leb n 31 || N.leb 127 n || N.eqb n 32 || N.eqb n 34 || N.eqb n 35 || N.eqb n 60 || N.eqb n 62 || N.eqb n 63 ||
   N.eqb n 96 || N.eqb n 123 || N.eqb n 125)%N.

Definition hex_digit (n : N) : ascii :=
  ascii_of_N (if N.ltb n 10 then 48 + n else 55 + n)%N.
Definition percent (c : ascii) : text :=
  let n := N_of_ascii c in ["%"; hex_digit (N.div n 16); hex_digit (N.modulo n 16)].
Definition escape_char (c : ascii) : text := if is_escaped c then percent c else [c].
Definition escape (s : text) : text := flat_map escape_char s.

(** The segments of a text: there's always one. *)
Fixpoint split (s : text) : list text :=
  match s with
  | [] => [[]]
  | c :: s =>
    if is_sep c then [] :: split s
    else match split s with
         | seg :: segs => (c :: seg) :: segs
         | [] => [[c]]
         end
  end.

(** A dot, also written as [%2e]: what follows it. *)
Definition dot (s : text) : option text :=
  match s with
  | "." :: s => Some s
  | "%" :: "2" :: "e" :: s => Some s
  | "%" :: "2" :: "E" :: s => Some s
  | _ => None
  end.
Definition is_single_dot (s : text) : bool := match dot s with Some [] => true | _ => false end.
Definition is_double_dot (s : text) : bool := match dot s with Some s => is_single_dot s | None => false end.

(** The segments so far are in reverse. *)
Fixpoint normalize (done : list text) (segs : list text) : list text :=
  match segs with
  | [] => done
  | s :: rest =>
    let last := match rest with [] => true | _ => false end in
    if is_double_dot s then normalize (if last then [] :: tl done else tl done) rest
    else if is_single_dot s then normalize (if last then [] :: done else done) rest
    else normalize (s :: done) rest
  end.

Definition set_path (path : text) : list text :=
  let path := filter (fun c => negb (is_ignored c)) path in
  let path := match path with c :: p => if is_sep c then p else path | [] => path end in
  rev (normalize [] (map escape (split path))).

(** ** Trusted documents (trusted_documents_client.rs:113-118) *)

Definition trusted_document_url (branch_id client_name document_id : text) : list text :=
  set_path (T "trusted-documents/branch/" ++ branch_id ++ "/" :: client_name ++ "/" :: document_id).

(** ** Graphs (object_storage.rs:126-144) *)

(** [form_urlencoded::byte_serialize]. *)
Definition is_form_safe (c : ascii) : bool :=
  let n := N_of_ascii c in
  (N.eqb n 42 || N.eqb n 45 || N.eqb n 46 || N.eqb n 95 || (N.leb 48 n && N.leb n 57) || (N.leb 65 n && N.leb n 90) ||
   (N.leb 97 n && N.leb n 122))%N.
Definition byte_serialize (s : text) : text :=
  flat_map (fun c => if is_form_safe c then [c] else if Ascii.eqb c " " then ["+"] else percent c) s.

Inductive graph_ref :=
| LatestProductionVersion (graph_slug : text)
| LatestVersion (graph_slug branch_name : text)
| Id (graph_slug branch_name version : text).

Definition graph_url (g : graph_ref) : list text :=
  set_path (match g with
            | LatestProductionVersion slug => T "/graphs/" ++ slug
            | LatestVersion slug branch => T "/graphs/" ++ slug ++ T "/branch/" ++ byte_serialize branch
            | Id slug branch version =>
              T "/graphs/" ++ slug ++ T "/branch/" ++ byte_serialize branch ++ T "/version/" ++ version
            end).
