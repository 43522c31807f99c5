(** Model of field selection maps ("@require", "@is", "@derive"): text.
    Source: crates/engine/field-selection-map/src/{model.rs, parser.rs}.
    Characters are code points.  A parser of winnow takes a text and gives a value with the rest,
    or fails and gives the text back; [separated] gives the separator back if no element follows
    it.  The fuel is the length of the text (see [parse]); the texts of errors are left out. *)
From Coq Require Import List NArith Bool.
Import ListNotations.
Local Open Scope list_scope.
Local Open Scope N_scope.

Definition text := list N.
Definition name := list N.

(** model.rs:72-76, 88-92 *)
Record segment := Segment { g_field : name; g_ty : option name }.
Record path := Path { p_ty : option name; p_segments : list segment }.
(** model.rs:7-11, 32-48, 109-113, 128-133, 145-147 *)
Inductive value := Value (alternatives : list entry)
with entry :=
| Identity
| EPath (p : path)
| EObject (p : option path) (fields : list ofield)
| EList (p : option path) (list_ : value)
with ofield := OField (key : name) (v : option value).

(** ** Printing *)
Definition intersperse (sep : text) (l : list text) : text :=
  match l with [] => [] | t :: l => t ++ flat_map (fun t => sep ++ t) l end.
(** model.rs:78-85 *)
Definition print_segment (s : segment) : text :=
  match g_ty s with Some ty => g_field s ++ [60] ++ ty ++ [62] | None => g_field s end.
(** model.rs:94-107 *)
Definition print_path (p : path) : text :=
  (match p_ty p with Some ty => [60] ++ ty ++ [62; 46] | None => [] end) ++ intersperse [46] (map print_segment (p_segments p)).
(** model.rs:20-30, 50-70, 115-125, 135-142, 149-152 *)
Fixpoint print (v : value) : text :=
  match v with Value l => intersperse [32; 124; 32] (map print_entry l) end
with print_entry (e : entry) : text :=
  match e with
  | EPath p => print_path p
  | EObject p fields =>
      (match p with Some p => print_path p ++ [46] | None => [] end) ++
      [123; 32] ++ intersperse [32] (map print_field fields) ++ [32; 125]
  | EList p v => (match p with Some p => print_path p | None => [] end) ++ [91] ++ print v ++ [93]
  | Identity => [46]
  end
with print_field (f : ofield) : text :=
  match f with
  | OField k (Some v) => k ++ [58; 32] ++ print v
  | OField k None => k
  end.

(** ** Parsing *)
Definition between (a b c : N) : bool := (a <=? c) && (c <=? b).
(** winnow: [multispace0], [multispace1], [AsChar::is_alpha], [AsChar::is_alphanum]. *)
Definition is_ws (c : N) : bool := (c =? 32) || (c =? 9) || (c =? 10) || (c =? 13).
Definition name_start (c : N) : bool := between 65 90 c || between 97 122 c || (c =? 95).
Definition name_char (c : N) : bool := name_start c || between 48 57 c.
Fixpoint multispace0 (t : text) : text :=
  match t with c :: r => if is_ws c then multispace0 r else t | [] => [] end.
Definition multispace1 (t : text) : option text :=
  match t with c :: r => if is_ws c then Some (multispace0 r) else None | [] => None end.
Fixpoint take_while (p : N -> bool) (t : text) : text * text :=
  match t with
  | c :: r => if p c then let (a, b) := take_while p r in (c :: a, b) else ([], t)
  | [] => ([], [])
  end.
Definition char (x : N) (t : text) : option text :=
  match t with c :: r => if c =? x then Some r else None | [] => None end.
Definition bind {A B} (o : option A) (k : A -> option B) : option B := match o with Some a => k a | None => None end.
(** [ws] of a character. *)
Definition ws_char (x : N) (t : text) : option text := bind (char x (multispace0 t)) (fun r => Some (multispace0 r)).

(** parser.rs:124-134 *)
Definition p_name (t : text) : option (name * text) :=
  match t with
  | c :: r => if name_start c then let (a, r) := take_while name_char r in Some (c :: a, r) else None
  | [] => None
  end.
(** [opt] of a parser. *)
Definition opt {A} (r : option (A * text)) (t : text) : option A * text :=
  match r with Some (a, r) => (Some a, r) | None => (None, t) end.
(** parser.rs:108-122 *)
Definition p_condition (t : text) : option (name * text) :=
  bind (char 60 (multispace0 t)) (fun r =>
  bind (p_name (multispace0 r)) (fun '(n, r) =>
  bind (char 62 (multispace0 r)) (fun r => Some (n, r)))).
Definition p_segment (t : text) : option (segment * text) :=
  bind (p_name t) (fun '(n, r) => let (ty, r) := opt (p_condition r) r in Some (Segment n ty, r)).
(** parser.rs:95-106 *)
Fixpoint p_more_segments (n : nat) (t : text) : list segment * text :=
  match n with
  | O => ([], t)
  | S n =>
      match bind (ws_char 46 t) p_segment with
      | Some (s, r) => let (l, r) := p_more_segments n r in (s :: l, r)
      | None => ([], t)
      end
  end.
Definition p_type (t : text) : option (name * text) :=
  bind (char 60 t) (fun r => bind (p_name (multispace0 r)) (fun '(n, r) =>
  bind (char 62 (multispace0 r)) (fun r => bind (char 46 (multispace0 r)) (fun r => Some (n, r))))).
Definition p_path (n : nat) (t : text) : option (path * text) :=
  let (ty, r) := opt (p_type t) t in
  bind (p_segment r) (fun '(s, r) => let (l, r) := p_more_segments n r in Some (Path ty (s :: l), r)).

Fixpoint p_value (n : nat) (t : text) {struct n} : option (value * text) :=
  (* parser.rs:19-28 *)
  match n with
  | O => None
  | S n => bind (p_entry n t) (fun '(e, r) => let (l, r) := p_alternatives n r in Some (Value (e :: l), r))
  end
with p_alternatives (n : nat) (t : text) {struct n} : list entry * text :=
  match n with
  | O => ([], t)
  | S n =>
      match bind (ws_char 124 t) (p_entry n) with
      | Some (e, r) => let (l, r) := p_alternatives n r in (e :: l, r)
      | None => ([], t)
      end
  end
with p_entry (n : nat) (t : text) {struct n} : option (entry * text) :=
  (* parser.rs:31-59 *)
  match n with
  | O => None
  | S n =>
      match t with
      | [] => None
      | c :: r =>
          if c =? 123 then bind (p_object n t) (fun '(o, r) => Some (EObject None o, r))
          else if c =? 91 then bind (p_list n t) (fun '(v, r) => Some (EList None v, r))
          else if c =? 46 then Some (Identity, r)
          else
            bind (p_path n t) (fun '(p, r) =>
            match multispace0 r with
            | d :: _ =>
                if d =? 46 then bind (ws_char 46 r) (fun r => bind (p_object n r) (fun '(o, r) => Some (EObject (Some p) o, r)))
                else if d =? 91 then bind (p_list n (multispace0 r)) (fun '(v, r) => Some (EList (Some p) v, r))
                else Some (EPath p, r)
            | [] => Some (EPath p, r)
            end)
      end
  end
with p_object (n : nat) (t : text) {struct n} : option (list ofield * text) :=
  (* parser.rs:62-75 *)
  match n with
  | O => None
  | S n =>
      bind (char 123 t) (fun r =>
      let r := multispace0 r in
      let (l, r) := match p_field n r with
                    | Some (f, r) => let (l, r) := p_fields n r in (f :: l, r)
                    | None => ([], r)
                    end in
      bind (char 125 (multispace0 r)) (fun r => Some (l, r)))
  end
with p_fields (n : nat) (t : text) {struct n} : list ofield * text :=
  match n with
  | O => ([], t)
  | S n =>
      match bind (multispace1 t) (p_field n) with
      | Some (f, r) => let (l, r) := p_fields n r in (f :: l, r)
      | None => ([], t)
      end
  end
with p_field (n : nat) (t : text) {struct n} : option (ofield * text) :=
  (* parser.rs:78-86 *)
  match n with
  | O => None
  | S n =>
      bind (p_name t) (fun '(k, r) =>
      let (v, r) := opt (bind (ws_char 58 r) (p_value n)) r in
      Some (OField k v, r))
  end
with p_list (n : nat) (t : text) {struct n} : option (value * text) :=
  (* parser.rs:88-93 *)
  match n with
  | O => None
  | S n =>
      bind (char 91 t) (fun r => bind (p_value n (multispace0 r)) (fun '(v, r) =>
      bind (char 93 (multispace0 r)) (fun r => Some (v, r))))
  end.
(** parser.rs:12-17; every call takes one step of fuel and at most three follow each other
    without taking a character. *)
Definition parse (t : text) : option value :=
  bind (p_value (4 * List.length t + 4) (multispace0 t)) (fun '(v, r) =>
  match multispace0 r with [] => Some v | _ => None end).
