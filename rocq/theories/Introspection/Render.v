(** Model of the text of default values.
    Source: crates/engine/schema/src/input_value/walker/display.rs ([Display for SchemaInputValue]);
    the same escaping is in crates/engine/schema/src/sdl.rs:77-92 ([write_quoted_string]).
    A text is a list of code points. *)
From Coq Require Import String Ascii List NArith ZArith Decimal DecimalN.
Import ListNotations.
Local Open Scope list_scope.
Local Open Scope N_scope.

Definition text := list N.
Fixpoint codes (s : string) : text :=
  match s with EmptyString => [] | String a s => N_of_ascii a :: codes s end.

(** [SchemaInputValueRecord] (schema/src/input_value/mod.rs).  The integers of all sizes are one
    case; a float is the text that Rust writes for it; the names of the fields of an input object
    and the keys of a map are alike, so are bound and unbound enum values. *)
Inductive svalue :=
| SNull | SString (s : text) | SInt (z : Z) | SFloat (t : text) | SBool (b : bool)
| SObject (l : list (text * svalue)) | SList (l : list svalue) | SEnum (name : text).

(** Decimal digits. *)
Fixpoint digits (u : uint) : text :=
  match u with
  | Nil => []
  | D0 u => 48 :: digits u | D1 u => 49 :: digits u | D2 u => 50 :: digits u | D3 u => 51 :: digits u
  | D4 u => 52 :: digits u | D5 u => 53 :: digits u | D6 u => 54 :: digits u | D7 u => 55 :: digits u
  | D8 u => 56 :: digits u | D9 u => 57 :: digits u
  end.
Definition show_N (n : N) : text := digits (N.to_uint n).
Definition show_Z (z : Z) : text :=
  match z with Z0 => show_N 0 | Zpos p => show_N (Npos p) | Zneg p => 45 :: show_N (Npos p) end.

(** [char::is_control]: the category Cc. *)
Definition is_control (c : N) : bool := (c <? 32) || ((127 <=? c) && (c <=? 159)).
(** [{:04}] *)
Definition pad4 (t : text) : text := repeat 48 (4 - List.length t)%nat ++ t.
(** display.rs:38-52 — one character of [write_quoted]. *)
Definition quote_char (c : N) : text :=
  if c =? 13 then codes "\r"
  else if c =? 10 then codes "\n"
  else if c =? 9 then codes "\t"
  else if c =? 34 then [92; 34]
  else if c =? 92 then [92; 92]
  else if is_control c then codes "\u" ++ pad4 (show_N c)
  else [c].
Definition write_quoted (s : text) : text := 34 :: flat_map quote_char s ++ [34].

(** display.rs:54-64 and 66-78 — [write_list] and [write_object]: a comma before all but the first. *)
Definition separated (l : list text) : text :=
  match l with [] => [] | t :: l => t ++ flat_map (fun t => 44 :: t) l end.
(** display.rs:9-36 *)
Fixpoint display (v : svalue) : text :=
  match v with
  | SNull => codes "null"
  | SString s => write_quoted s
  | SInt z => show_Z z
  | SFloat t => t
  | SBool b => codes (if b then "true" else "false")
  | SObject l => 123 :: separated (map (fun p => fst p ++ 58 :: display (snd p)) l) ++ [125]
  | SList l => 91 :: separated (map display l) ++ [93]
  | SEnum name => name
  end.
