(** GraphQL values as text (GraphQL specification, section 2.9), an independent reader.
    Part of the specification. *)
From Coq Require Import String List NArith ZArith Bool.
From Verif Require Import Introspection.Render.
Import ListNotations.
Local Open Scope list_scope.
Local Open Scope N_scope.

(** Numbers keep their text. *)
Inductive pvalue :=
| PNull | PString (s : text) | PNum (t : text) | PBool (b : bool)
| PObject (l : list (text * pvalue)) | PList (l : list pvalue) | PEnum (name : text).

Definition between (a b c : N) : bool := (a <=? c) && (c <=? b).
Definition is_digit (c : N) : bool := between 48 57 c.
Definition name_start (c : N) : bool := between 65 90 c || between 97 122 c || (c =? 95).
Definition name_char (c : N) : bool := name_start c || is_digit c.
Definition number_char (c : N) : bool := is_digit c || (c =? 45) || (c =? 43) || (c =? 46) || (c =? 101) || (c =? 69).
(** Spaces, line ends, commas and the byte order mark. *)
Definition ignored (c : N) : bool :=
  (c =? 32) || (c =? 44) || (c =? 9) || (c =? 10) || (c =? 13) || (c =? 65279).
Fixpoint skip (t : text) : text :=
  match t with c :: r => if ignored c then skip r else t | [] => [] end.
Fixpoint span (p : N -> bool) (t : text) : text * text :=
  match t with
  | c :: r => if p c then let (a, b) := span p r in (c :: a, b) else ([], t)
  | [] => ([], [])
  end.

Definition hex (c : N) : option N :=
  if between 48 57 c then Some (c - 48)
  else if between 65 70 c then Some (c - 55)
  else if between 97 102 c then Some (c - 87)
  else None.
Definition escape (c : N) : option N :=
  if c =? 34 then Some 34 else if c =? 92 then Some 92 else if c =? 47 then Some 47
  else if c =? 98 then Some 8 else if c =? 102 then Some 12 else if c =? 110 then Some 10
  else if c =? 114 then Some 13 else if c =? 116 then Some 9 else None.
Definition add_char (c : N) (r : option (text * text)) : option (text * text) :=
  match r with Some (s, r) => Some (c :: s, r) | None => None end.
(** The rest of a string after its opening quote. *)
Fixpoint read_string (t : text) : option (text * text) :=
  match t with
  | [] => None
  | c :: r =>
      if c =? 34 then Some ([], r)
      else if c =? 92 then
        match r with
        | [] => None
        | e :: r1 =>
            if e =? 117 then
              match r1 with
              | a :: b :: x :: y :: r2 =>
                  match hex a, hex b, hex x, hex y with
                  | Some a, Some b, Some x, Some y => add_char (((a * 16 + b) * 16 + x) * 16 + y) (read_string r2)
                  | _, _, _, _ => None
                  end
              | _ => None
              end
            else match escape e with Some c => add_char c (read_string r1) | None => None end
        end
      else if (c <? 32) && negb (c =? 9) then None
      else add_char c (read_string r)
  end.

Fixpoint text_eqb (a b : text) : bool :=
  match a, b with
  | [], [] => true
  | x :: a, y :: b => (x =? y) && text_eqb a b
  | _, _ => false
  end.
Definition word (t : text) : pvalue :=
  if text_eqb t (codes "null"%string) then PNull
  else if text_eqb t (codes "true"%string) then PBool true
  else if text_eqb t (codes "false"%string) then PBool false
  else PEnum t.

Fixpoint p_value (n : nat) (t : text) {struct n} : option (pvalue * text) :=
  match n with
  | O => None
  | S n =>
    match skip t with
    | [] => None
    | c :: r =>
        if c =? 34 then
          match r with
          | q1 :: q2 :: _ =>
              if (q1 =? 34) && (q2 =? 34) then None (* a block string *)
              else match read_string r with Some (s, r) => Some (PString s, r) | None => None end
          | _ => match read_string r with Some (s, r) => Some (PString s, r) | None => None end
          end
        else if c =? 91 then match p_items n r with Some (l, r) => Some (PList l, r) | None => None end
        else if c =? 123 then match p_fields n r with Some (l, r) => Some (PObject l, r) | None => None end
        else if is_digit c || (c =? 45) then let (a, r) := span number_char (c :: r) in Some (PNum a, r)
        else if name_start c then let (a, r) := span name_char (c :: r) in Some (word a, r)
        else None
    end
  end
with p_items (n : nat) (t : text) {struct n} : option (list pvalue * text) :=
  match n with
  | O => None
  | S n =>
    match skip t with
    | [] => None
    | c :: r =>
        if c =? 93 then Some ([], r)
        else match p_value n (c :: r) with
             | Some (v, r) => match p_items n r with Some (l, r) => Some (v :: l, r) | None => None end
             | None => None
             end
    end
  end
with p_fields (n : nat) (t : text) {struct n} : option (list (text * pvalue) * text) :=
  match n with
  | O => None
  | S n =>
    match skip t with
    | [] => None
    | c :: r =>
        if c =? 125 then Some ([], r)
        else if name_start c then
          let (name, r) := span name_char (c :: r) in
          match skip r with
          | x :: r =>
              if x =? 58 then
                match p_value n r with
                | Some (v, r) => match p_fields n r with Some (l, r) => Some ((name, v) :: l, r) | None => None end
                | None => None
                end
              else None
          | [] => None
          end
        else None
    end
  end.
Definition parse (t : text) : option pvalue :=
  match p_value (S (List.length t)) t with
  | Some (v, r) => match skip r with [] => Some v | _ => None end
  | None => None
  end.

(** The integer that a text of digits denotes. *)
Fixpoint horner (acc : N) (t : text) : option N :=
  match t with
  | [] => Some acc
  | c :: t => if is_digit c then horner (acc * 10 + (c - 48)) t else None
  end.
Definition int_of (t : text) : option Z :=
  match t with
  | [] => None
  | c :: r => if c =? 45 then match r, horner 0 r with _ :: _, Some n => Some (- Z.of_N n)%Z | _, _ => None end
              else option_map Z.of_N (horner 0 t)
  end.

(** What was read is the value. *)
Inductive reads : pvalue -> svalue -> Prop :=
| rd_null : reads PNull SNull
| rd_string s : reads (PString s) (SString s)
| rd_int t z : int_of t = Some z -> reads (PNum t) (SInt z)
| rd_float t : reads (PNum t) (SFloat t)
| rd_bool b : reads (PBool b) (SBool b)
| rd_enum n : reads (PEnum n) (SEnum n)
| rd_list ps vs : Forall2 reads ps vs -> reads (PList ps) (SList vs)
| rd_object ps vs : Forall2 (fun p v => fst p = fst v /\ reads (snd p) (snd v)) ps vs -> reads (PObject ps) (SObject vs).

Definition name (t : text) : Prop :=
  match t with [] => False | c :: r => name_start c = true /\ Forall (fun c => name_char c = true) r end.
(** A character that needs no \u, or one whose code is a single digit. *)
Definition plain (c : N) : Prop := c = 10 \/ c = 13 \/ c < 10 \/ (32 <= c < 127) \/ 159 < c.
(** Values of a schema: names are names, enum values are none of the three words, floats are
    numbers, strings are [plain]. *)
Inductive printable : svalue -> Prop :=
| pr_null : printable SNull
| pr_string s : Forall plain s -> printable (SString s)
| pr_int z : printable (SInt z)
| pr_float c t : (is_digit c = true \/ c = 45) -> Forall (fun c => number_char c = true) t -> printable (SFloat (c :: t))
| pr_bool b : printable (SBool b)
| pr_enum n : name n -> n <> codes "null"%string -> n <> codes "true"%string -> n <> codes "false"%string -> printable (SEnum n)
| pr_list l : Forall printable l -> printable (SList l)
| pr_object l : Forall (fun p => name (fst p) /\ printable (snd p)) l -> printable (SObject l).
