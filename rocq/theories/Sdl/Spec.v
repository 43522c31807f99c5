(** * Strings of the GraphQL language (specification of October 2021, section 2.9.4)

    Part of the specification: an independent reader of block strings.  Quoted
    strings are read by [read_string] of Introspection/Grammar.v. *)

From Coq Require Import List NArith Bool Arith.
From Verif Require Import Introspection.Render Introspection.Grammar.
Import ListNotations.
Local Open Scope list_scope.
Local Open Scope N_scope.

(** SourceCharacter. *)
Definition source_char (c : N) : bool := (c =? 9) || (c =? 10) || (c =? 13) || (32 <=? c).

(** The rest of a block string after its opening quotes: the raw characters up to
    three quotes that no backslash precedes, and what follows. *)
Fixpoint read_block (t : text) : option (text * text) :=
  match t with
  | [] => None
  | c :: r =>
      if c =? 34 then
        match r with
        | a :: b :: r2 =>
            if (a =? 34) && (b =? 34) then Some ([], r2) else add_char c (read_block r)
        | _ => None
        end
      else if c =? 92 then
        match r with
        | a :: b :: e :: r3 =>
            if (a =? 34) && (b =? 34) && (e =? 34)
            then add_char 34 (add_char 34 (add_char 34 (read_block r3)))
            else add_char c (read_block r)
        | _ => None
        end
      else if source_char c then add_char c (read_block r)
      else None
  end.

(** Lines end with LF, CR or CR LF. *)
Fixpoint block_lines (t : text) : list text :=
  match t with
  | [] => [[]]
  | c :: r =>
      if c =? 10 then [] :: block_lines r
      else if c =? 13 then
        match r with
        | e :: _ => if e =? 10 then block_lines r else [] :: block_lines r
        | [] => [] :: block_lines r
        end
      else match block_lines r with
           | [] => [[c]]
           | l :: ls => (c :: l) :: ls
           end
  end.

(** WhiteSpace is a space or a tab. *)
Definition blank_char (c : N) : bool := (c =? 32) || (c =? 9).
Definition blank (l : text) : bool := forallb blank_char l.

Fixpoint indent_of (l : text) : nat :=
  match l with
  | c :: r => if blank_char c then S (indent_of r) else 0%nat
  | [] => 0%nat
  end.

Fixpoint common_indent (ls : list text) : option nat :=
  match ls with
  | [] => None
  | l :: r =>
      if blank l then common_indent r
      else match common_indent r with
           | Some n => Some (Nat.min (indent_of l) n)
           | None => Some (indent_of l)
           end
  end.

Fixpoint drop_blank (ls : list text) : list text :=
  match ls with
  | l :: r => if blank l then drop_blank r else ls
  | [] => []
  end.

Fixpoint join (ls : list text) : text :=
  match ls with
  | [] => []
  | l :: r => match r with [] => l | _ => l ++ 10 :: join r end
  end.

(** BlockStringValue. *)
Definition block_value (raw : text) : text :=
  let ls := block_lines raw in
  let ls :=
    match ls with
    | first :: others =>
        match common_indent others with
        | Some n => first :: map (skipn n) others
        | None => ls
        end
    | [] => []
    end in
  join (rev (drop_blank (rev (drop_blank ls)))).

(** [t] begins, after spaces, with a block string that means [v]; [rest] follows. *)
Definition block_string (t v rest : text) : Prop :=
  exists spaces u raw,
    t = spaces ++ [34; 34; 34] ++ u /\ (forall c, In c spaces -> blank_char c = true)
    /\ read_block u = Some (raw, rest) /\ v = block_value raw.

(** [t] begins, after spaces, with a quoted string that means [v]. *)
Definition quoted_string (t v rest : text) : Prop :=
  exists spaces u,
    t = spaces ++ [34] ++ u /\ (forall c, In c spaces -> blank_char c = true)
    /\ read_string u = Some (v, rest).

(** Three quotes in a row. *)
Definition has_quotes (t : text) : Prop := exists a b, t = a ++ [34; 34; 34] ++ b.

(** The characters Unicode counts as white space. *)
Definition spaces : list N :=
  [9; 10; 11; 12; 13; 32; 133; 160; 5760; 8192; 8193; 8194; 8195; 8196; 8197; 8198; 8199;
   8200; 8201; 8202; 8232; 8233; 8239; 8287; 12288].

Definition visible_char (c : N) : bool := negb (existsb (N.eqb c) spaces).
Definition visible (t : text) : text := filter visible_char t.

(** A line without line ends that begins and ends with a visible character. *)
Definition tidy_line (l : text) : Prop :=
  exists c, hd_error l = Some c /\ visible_char c = true
  /\ exists e, hd_error (rev l) = Some e /\ visible_char e = true
  /\ ~ In 10 l /\ ~ In 13 l.

(** Paragraphs separated by at most one empty line. *)
Inductive tidy : list text -> Prop :=
| tidy_one l : tidy_line l -> tidy [l]
| tidy_next l ls : tidy_line l -> tidy ls -> tidy (l :: ls)
| tidy_gap l ls : tidy_line l -> tidy ls -> tidy (l :: [] :: ls).
