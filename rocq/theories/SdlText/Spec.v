(** Strings of GraphQL (section 2.9.4 of the specification). *)
From Coq Require Import List Bool NArith.
From Verif.SdlText Require Import Model.
Import ListNotations.
Open Scope N_scope.
Open Scope list_scope.

Definition hex (c : N) : option N :=
  if (48 <=? c) && (c <=? 57) then Some (c - 48)
  else if (65 <=? c) && (c <=? 70) then Some (c - 55)
  else if (97 <=? c) && (c <=? 102) then Some (c - 87)
  else None.

(** EscapedCharacter *)
Definition escaped (c : N) : option N :=
  match c with
  | 34 => Some 34 | 92 => Some 92 | 47 => Some 47 | 98 => Some 8 | 102 => Some 12 | 110 => Some 10 | 114 => Some 13 | 116 => Some 9
  | _ => None
  end.

(** What is in a string, after its first quote: its value, and what follows it. *)
Fixpoint read_body (s : text) : option (text * text) :=
  match s with
  | [] => None
  | c :: r =>
    if c =? 34 then Some ([], r)
    else if c =? 92 then
      match r with
      | e :: r' =>
        match escaped e with
        | Some v => match read_body r' with Some (t, rest) => Some (v :: t, rest) | None => None end
        | None =>
          match e, r' with
          | 117, a :: b :: c :: d :: r'' =>
            match hex a, hex b, hex c, hex d with
            | Some a, Some b, Some c, Some d =>
              match read_body r'' with Some (t, rest) => Some (4096 * a + 256 * b + 16 * c + d :: t, rest) | None => None end
            | _, _, _, _ => None
            end
          | _, _ => None
          end
        end
      | [] => None
      end
    else if (c =? 10) || (c =? 13) then None
    else match read_body r with Some (t, rest) => Some (c :: t, rest) | None => None end
  end.

(** A string on one line. *)
Definition read_string (s : text) : option (text * text) := match s with 34 :: r => read_body r | _ => None end.

Definition triple (s : text) : bool := match s with a :: b :: c :: _ => (a =? 34) && (b =? 34) && (c =? 34) | _ => false end.

(** The raw value of a block string, after its first quotes. *)
Fixpoint read_raw (s : text) : option (text * text) :=
  match s with
  | [] => None
  | c :: r =>
    if triple s then match r with _ :: _ :: rest => Some ([], rest) | _ => None end
    else if (c =? 92) && triple r then
      match r with
      | _ :: _ :: _ :: r' => match read_raw r' with Some (t, rest) => Some (34 :: 34 :: 34 :: t, rest) | None => None end
      | _ => None
      end
    else match read_raw r with Some (t, rest) => Some (c :: t, rest) | None => None end
  end.

Definition blank (l : text) : bool := forallb (fun c => (c =? 32) || (c =? 9)) l.

Fixpoint indent_of (l : text) : nat := match l with c :: r => if (c =? 32) || (c =? 9) then S (indent_of r) else O | [] => O end.

(** BlockStringValue: the common indentation of all lines but the first. *)
Definition common (ls : list text) : option nat :=
  fold_left (fun a l => if blank l then a else match a with None => Some (indent_of l) | Some n => Some (Nat.min n (indent_of l)) end) (tl ls) None.

Fixpoint drop_blank (ls : list text) : list text := match ls with l :: r => if blank l then drop_blank r else ls | [] => [] end.

Fixpoint unlines (ls : list text) : text := match ls with [] => [] | [l] => l | l :: r => l ++ 10 :: unlines r end.

Definition block_value (raw : text) : text :=
  let ls := lines raw in
  let ls := match common ls, ls with Some n, l :: r => l :: map (skipn n) r | _, _ => ls end in
  unlines (rev (drop_blank (rev (drop_blank ls)))).

(** A string of either kind. *)
Definition read (s : text) : option (text * text) :=
  match s with
  | 34 :: 34 :: 34 :: r => match read_raw r with Some (raw, rest) => Some (block_value raw, rest) | None => None end
  | _ => read_string s
  end.

(** A line of a description: no quotes, no line ends, and no white space at its end. *)
Definition Line (l : text) : Prop :=
  Forall (fun c => c <> 34 /\ c <> 10 /\ c <> 13) l /\ forall a c, l = a ++ [c] -> c <> 32 /\ ~ (9 <= c <= 13).

(** It begins with a character that is no space. *)
Definition Flush (l : text) : Prop := exists c r, l = c :: r /\ c <> 32 /\ c <> 9.

(** Lines joined to a text. *)
Inductive Joined : list text -> text -> Prop :=
| joined_one l : Joined [l] l
| joined_more l ls d : Joined ls d -> Joined (l :: ls) (l ++ 10 :: d).
