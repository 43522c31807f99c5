(** How descriptions and addresses are written in the schemas given to MCP clients.
    crates/mcp/src/tools/sdl/buffer.rs:31-81. *)
From Coq Require Import List Bool NArith.
Import ListNotations.
Open Scope N_scope.
Open Scope list_scope.

(** Texts are lists of code points. *)
Definition text := list N.

Definition quote : N := 34.
Definition backslash : N := 92.
Definition newline : N := 10.

(** char::is_control *)
Definition is_control (c : N) : bool := (c <? 32) || ((127 <=? c) && (c <=? 159)).

(** The code of a control character in decimal, with four digits: the format is {:04}. *)
Definition four (n : N) : text := [48; 48 + n / 100 mod 10; 48 + n / 10 mod 10; 48 + n mod 10].

(** crates/mcp/src/tools/sdl/buffer.rs:37-51 write_quoted *)
Definition quoted_char (c : N) : text :=
  if c =? 13 then [backslash; 114]
  else if c =? newline then [backslash; 110]
  else if c =? 9 then [backslash; 116]
  else if c =? quote then [backslash; quote]
  else if c =? backslash then [backslash; backslash]
  else if is_control c then [backslash; 117] ++ four c
  else [c].

Definition write_quoted (s : text) : text := [quote] ++ flat_map quoted_char s ++ [quote].

(** White space at the end. str::trim_end also knows that of Unicode. *)
Definition is_space (c : N) : bool := (c =? 32) || ((9 <=? c) && (c <=? 13)).

Fixpoint drop_spaces (s : text) : text :=
  match s with
  | [] => []
  | c :: r => if is_space c then drop_spaces r else s
  end.

Definition trim_end (s : text) : text := rev (drop_spaces (rev s)).

(** Itertools::intersperse(s.split of quotes, backslash and quote) *)
Definition escape_quotes (s : text) : text := flat_map (fun c => if c =? quote then [backslash; quote] else [c]) s.

Fixpoint lines (s : text) : list text :=
  match s with
  | [] => [[]]
  | c :: r => if c =? newline then [] :: lines r else match lines r with l :: ls => (c :: l) :: ls | [] => [[c]] end
  end.

Definition spaces (indent : nat) : text := repeat 32 (2 * indent).

(** crates/mcp/src/tools/sdl/buffer.rs:53-77 write_description *)
Definition write_description (indent : nat) (d : text) : text :=
  spaces indent ++
  if existsb (N.eqb newline) d then
    [quote; quote; quote; newline] ++
    flat_map (fun l => spaces indent ++ escape_quotes (trim_end l) ++ [newline]) (lines d) ++
    spaces indent ++ [quote; quote; quote; newline]
  else [quote] ++ escape_quotes (trim_end d) ++ [quote; newline].
