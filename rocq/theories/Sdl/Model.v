(** * Descriptions and strings in written SDL

    - [crates/graphql-composition/src/federated_graph/render_sdl/display_utils.rs],
      lines 31-45 ([display_graphql_string_literal]) and 65-87 ([Description])
    - [.../render_sdl/render_federated_sdl.rs], lines 18-41 (scalars)
    - [crates/mcp/src/tools/sdl/buffer.rs], lines 54-78 ([write_description])

    A text is its list of Unicode scalar values.  Writing to a formatter is
    appending, and no write fails. *)

From Coq Require Import List NArith Bool Arith.
From Verif Require Import Introspection.Render.
Import ListNotations.
Local Open Scope list_scope.
Local Open Scope N_scope.

(** [char::is_whitespace]: the Unicode property White_Space. *)
Definition white (c : N) : bool :=
  ((9 <=? c) && (c <=? 13)) || (c =? 32) || (c =? 133) || (c =? 160) || (c =? 5760)
  || ((8192 <=? c) && (c <=? 8202)) || (c =? 8232) || (c =? 8233) || (c =? 8239)
  || (c =? 8287) || (c =? 12288).

Definition starts_lf (t : text) : bool :=
  match t with c :: _ => c =? 10 | [] => false end.

(** [str::lines]: lines end with a line feed, possibly after a carriage return; a
    last line that is empty is not one. *)
Fixpoint lines (t : text) : list text :=
  match t with
  | [] => []
  | c :: r =>
      if c =? 10 then [] :: lines r
      else if (c =? 13) && starts_lf r then lines r
      else match lines r with
           | [] => [[c]]
           | l :: ls => (c :: l) :: ls
           end
  end.

Definition is_empty (t : text) : bool := match t with [] => true | _ => false end.

(** [str::trim_start], [trim_end] and [trim]. *)
Fixpoint trim_start (t : text) : text :=
  match t with
  | [] => []
  | c :: r => if white c then trim_start r else t
  end.

Fixpoint trim_end (t : text) : text :=
  match t with
  | [] => []
  | c :: r =>
      match trim_end r with
      | [] => if white c then [] else [c]
      | r' => c :: r'
      end
  end.

Definition trim (t : text) : text := trim_end (trim_start t).

Fixpoint skip_empty (ls : list text) : list text :=
  match ls with
  | l :: r => if is_empty l then skip_empty r else ls
  | [] => []
  end.

(** The loop of [Description::fmt], display_utils.rs:75-83: a blank line is left out
    before an empty one and at the end. *)
Fixpoint body (ls : list text) : list text :=
  match ls with
  | [] => []
  | l :: r =>
      if is_empty (trim l) && match r with n :: _ => is_empty n | [] => true end
      then body r
      else trim l :: body r
  end.

Definition quotes : text := [34; 34; 34].

(** [Description::fmt], display_utils.rs:67-87. *)
Definition description (d indent : text) : text :=
  indent ++ quotes ++ [10]
  ++ flat_map (fun l => indent ++ l ++ [10]) (body (skip_empty (lines d)))
  ++ indent ++ quotes ++ [10].

(** Decimal digits of a number below 10000, four of them, as [{:04}] writes. *)
Definition four_digits (n : N) : text :=
  [48 + n / 1000; 48 + (n / 100) mod 10; 48 + (n / 10) mod 10; 48 + n mod 10].

(** [char::is_control]: the general category Cc. *)
Definition control (c : N) : bool := (c <? 32) || ((127 <=? c) && (c <=? 159)).

(** One character of [display_graphql_string_literal], display_utils.rs:33-42. *)
Definition literal_char (c : N) : text :=
  if c =? 13 then [92; 114]
  else if c =? 10 then [92; 110]
  else if c =? 9 then [92; 116]
  else if c =? 92 then [92; 92]
  else if c =? 34 then [92; 34]
  else if control c then [92; 117] ++ four_digits c
  else [c].

(** [display_graphql_string_literal], display_utils.rs:31-45. *)
Definition literal (s : text) : text := [34] ++ flat_map literal_char s ++ [34].

(** [Itertools::intersperse(s.split('"'), r#"\""#)]: quotes get a backslash. *)
Definition mcp_quotes (s : text) : text :=
  flat_map (fun c => if c =? 34 then [92; 34] else [c]) s.

(** [str::split('\n')]: one line more than there are line feeds. *)
Fixpoint split_lf (t : text) : list text :=
  match t with
  | [] => [[]]
  | c :: r =>
      if c =? 10 then [] :: split_lf r
      else match split_lf r with
           | [] => [[c]]
           | l :: ls => (c :: l) :: ls
           end
  end.

(** [write_description], buffer.rs:54-78. *)
Definition mcp_description (d indent : text) : text :=
  if existsb (fun c => c =? 10) d then
    indent ++ quotes ++ [10]
    ++ flat_map (fun l => indent ++ mcp_quotes (trim_end l) ++ [10]) (split_lf d)
    ++ indent ++ quotes ++ [10]
  else indent ++ [34] ++ mcp_quotes (trim_end d) ++ [34; 10].

(** The scalars of [render_federated_sdl], render_federated_sdl.rs:18-41, without
    namespaces and directives: the description comes before the test for built-in
    scalars. *)
Definition scalars_sdl (builtin : text -> bool) (l : list (text * option text)) : text :=
  flat_map (fun p =>
    match snd p with Some d => description d [] | None => [] end
    ++ (if builtin (fst p) then []
        else [115; 99; 97; 108; 97; 114; 32] ++ fst p ++ [10; 10])) l.
