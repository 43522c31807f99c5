(** Templates in the arguments of extension directives
    (crates/engine/src/prepare/cached/extension/template.rs, crates/engine/schema/src/template.rs).

    Strings are lists of bytes (UTF-8), as they are for the Rust code that escapes them. *)
From Coq Require Import String Ascii List NArith Bool.
Import ListNotations.
Local Open Scope string_scope.
Local Open Scope list_scope.

(** [serde_json::Value] with the feature [preserve_order] (Cargo.toml:213).  Simplification: a number is
    kept as the text [Display] gives it. *)
Inductive json :=
| JNull
| JBool (b : bool)
| JNum (text : string)
| JStr (s : string)
| JArr (l : list json)
| JObj (fs : list (string * json)).

(** [TemplateEscaping], crates/engine/schema/src/template.rs:33-37 *)
Inductive escaping := Json | Url.

(** A parsed mustache template ([ramhorns::Template], external): text, [{{name}}], [{{&name}}],
    [{{#name}}...{{/name}}] and [{{^name}}...{{/name}}]. *)
Inductive block :=
| Text (s : string)
| Escaped (name : string)
| Unescaped (name : string)
| Section (name : string) (body : list block)
| Inverse (name : string) (body : list block).

Definition chr (n : N) : ascii := ascii_of_N n.
Definition code (c : ascii) : N := N_of_ascii c.
Definition one (c : ascii) : string := String c "".

(** One hexadecimal digit.  [base] is the code of the letter for ten. *)
Definition hex (base d : N) : ascii := if (d <? 10)%N then chr (48 + d) else chr (base + (d - 10)).

(** *** [urlencode], template.rs:34-44 *)

(** The set that is left alone: letters, digits and [_ . - ~] (template.rs:40-41; [NON_ALPHANUMERIC] also
    encodes every byte that is not ASCII). *)
Definition kept (c : ascii) : bool :=
  let n := code c in
  ((48 <=? n) && (n <=? 57) || (65 <=? n) && (n <=? 90) || (97 <=? n) && (n <=? 122)
   || (n =? 95) || (n =? 46) || (n =? 45) || (n =? 126))%N%bool.

Definition percent (c : ascii) : string :=
  String (chr 37) (String (hex 65 (code c / 16)) (one (hex 65 (code c mod 16)))).

Fixpoint urlencode (s : string) : string :=
  match s with
  | "" => ""
  | String c s => ((if kept c then one c else percent c) ++ urlencode s)%string
  end.

(** *** [serde_json::to_string] (external, compact formatter) *)

(** How one byte of a string is written. *)
Definition escape_byte (c : ascii) : string :=
  let n := code c in
  if (n =? 34)%N then String (chr 92) (one (chr 34))
  else if (n =? 92)%N then String (chr 92) (one (chr 92))
  else if (n =? 8)%N then String (chr 92) (one (chr 98))
  else if (n =? 9)%N then String (chr 92) (one (chr 116))
  else if (n =? 10)%N then String (chr 92) (one (chr 110))
  else if (n =? 12)%N then String (chr 92) (one (chr 102))
  else if (n =? 13)%N then String (chr 92) (one (chr 114))
  else if (n <? 32)%N then
    String (chr 92) (String (chr 117) (String (chr 48) (String (chr 48)
      (String (hex 97 (n / 16)) (one (hex 97 (n mod 16)))))))
  else one c.

Fixpoint escape_body (s : string) : string :=
  match s with
  | "" => ""
  | String c s => (escape_byte c ++ escape_body s)%string
  end.

Definition quote (s : string) : string := (one (chr 34) ++ escape_body s ++ one (chr 34))%string.

Fixpoint commas (l : list string) : string :=
  match l with
  | [] => ""
  | [s] => s
  | s :: l => (s ++ "," ++ commas l)%string
  end.

Fixpoint to_string (j : json) : string :=
  match j with
  | JNull => "null"
  | JBool b => if b then "true" else "false"
  | JNum t => t
  | JStr s => quote s
  | JArr l => ("[" ++ commas (map to_string l) ++ "]")%string
  | JObj fs => ("{" ++ commas (map (fun f => quote (fst f) ++ ":" ++ to_string (snd f))%string fs) ++ "}")%string
  end.

(** *** [JsonContent] *)

(** [render_escaped], template.rs:66-97 *)
Definition render_escaped (e : escaping) (j : json) : string :=
  match j with
  | JNull => "null"
  | JBool b => if b then "true" else "false"
  | JNum t => t
  | JStr s => match e with Json => quote s | Url => urlencode s end
  | JArr _ | JObj _ => match e with Json => to_string j | Url => urlencode (to_string j) end
  end.

(** [render_unescaped], template.rs:99-108 *)
Definition render_unescaped (j : json) : string :=
  match j with
  | JNull => "null"
  | JBool b => if b then "true" else "false"
  | JNum t => t
  | JStr s => s
  | JArr _ | JObj _ => to_string j
  end.

(** [str::split('.')]: never empty. *)
Fixpoint split_dots (s : string) : list string :=
  match s with
  | "" => [""]
  | String c s =>
    if (code c =? 46)%N then "" :: split_dots s
    else match split_dots s with
         | [] => [one c]
         | w :: ws => String c w :: ws
         end
  end.

Definition field (j : json) (key : string) : option json :=
  match j with
  | JObj fs => option_map snd (find (fun f => String.eqb (fst f) key) fs)
  | _ => None
  end.

Fixpoint walk (j : json) (keys : list string) : option json :=
  match keys with
  | [] => Some j
  | k :: ks => match field j k with Some j => walk j ks | None => None end
  end.

(** [JsonContent::get], template.rs:11-31 *)
Definition get (j : json) (name : string) : option json :=
  if String.eqb name "." then Some j else walk j (split_dots name).

(** [ramhorns] asks the contents from the innermost section outwards until one of the [render_field_*]
    answers [true] (template.rs:141-175 answer [true] exactly when [get] finds something). *)
Fixpoint lookup (stack : list json) (name : string) : option json :=
  match stack with
  | [] => None
  | j :: stack => match get j name with Some v => Some v | None => lookup stack name end
  end.

(** Rendering of the blocks of a template.  A section over a list is rendered once per element, with the
    element as the innermost content; over an object, once with the object; over anything else, once with
    nothing added (template.rs:110-129).  Inverse sections are never rendered (template.rs:131-139,177-189).
    Simplification: the index variables of [ramhorns]' feature [indexes] are not available. *)
Fixpoint render_block (e : escaping) (b : block) (stack : list json) {struct b} : string :=
  let fix blocks (bs : list block) (stack : list json) : string :=
    match bs with
    | [] => ""
    | b :: bs => (render_block e b stack ++ blocks bs stack)%string
    end in
  match b with
  | Text s => s
  | Escaped name => match lookup stack name with Some v => render_escaped e v | None => "" end
  | Unescaped name => match lookup stack name with Some v => render_unescaped v | None => "" end
  | Section name body =>
    match lookup stack name with
    | Some (JArr l) => String.concat "" (map (fun v => blocks body (v :: stack)) l)
    | Some (JObj fs) => blocks body (JObj fs :: stack)
    | Some _ => blocks body stack
    | None => ""
    end
  | Inverse _ _ => ""
  end.

Fixpoint render_blocks (e : escaping) (bs : list block) (stack : list json) : string :=
  match bs with
  | [] => ""
  | b :: bs => (render_block e b stack ++ render_blocks e bs stack)%string
  end.

(** The argument of a directive: the template over [{"args": args}]
    (crates/engine/src/prepare/cached/extension/query.rs:55-69, response.rs:93-107). *)
Definition render (e : escaping) (template : list block) (args : list (string * json)) : string :=
  render_blocks e template [JObj [("args", JObj args)]].
