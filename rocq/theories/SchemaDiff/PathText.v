(* Model of the texts of paths into schemas: graphql-schema-diff, src/path.rs,
   src/path/parse.rs and src/path/display.rs.  Texts are strings of bytes. *)
From Coq Require Import String Ascii List Bool NArith DecimalString.
Import ListNotations.
From Verif.SchemaDiff Require Import Diff.
Local Open Scope string_scope.


(** path.rs 37-58.  A usize has 64 bits. *)
Inductive in_field :=
| FArg (a : string)
| FDirective (n : string) (i : N).

Inductive in_type :=
| TField (f : string) (p : option in_field)
| TDirective (n : string) (i : N)
| TImpl (n : string).

Inductive gpath :=
| GSchema
| GSchemaExt (i : N)
| GType (n : string) (p : option in_type)
| GTypeExt (n : string) (i : N) (p : option in_type)
| GDirective (n : string).

(** display.rs *)

(* 76-80 *)
Definition write_index (i : N) : string := "[" ++ NilEmpty.string_of_uint (N.to_uint i) ++ "]".

(* 63-74 *)
Definition display_field (p : in_field) : string :=
  match p with
  | FArg a => a
  | FDirective n i => "@" ++ n ++ write_index i
  end.

(* 38-61 *)
Definition display_type (p : in_type) : string :=
  match p with
  | TField f None => f
  | TField f (Some q) => f ++ "." ++ display_field q
  | TDirective n i => "@" ++ n ++ write_index i
  | TImpl n => "&" ++ n
  end.

Definition display_in (p : option in_type) : string :=
  match p with
  | None => ""
  | Some q => "." ++ display_type q
  end.

(* 3-36 *)
Definition display (p : gpath) : string :=
  match p with
  | GSchema => ":schema"
  | GSchemaExt i => ":schema" ++ write_index i
  | GType n q => n ++ display_in q
  | GTypeExt n i q => n ++ write_index i ++ display_in q
  | GDirective n => "@" ++ n
  end.

(** parse.rs *)

(* A slice that isn't at the boundary of a character panics. *)
Inductive outcome (A : Type) :=
| Parsed (a : A)
| Refused
| Panicked.
Arguments Parsed {A} a.
Arguments Refused {A}.
Arguments Panicked {A}.

Definition bind {A B} (x : outcome A) (k : A -> outcome B) : outcome B :=
  match x with
  | Parsed a => k a
  | Refused => Refused
  | Panicked => Panicked
  end.

(* `str::split`: there is always a first segment. *)
Fixpoint split (c : ascii) (s : string) : string * list string :=
  match s with
  | EmptyString => ("", nil)
  | String x r =>
      let (h, t) := split c r in
      if Ascii.eqb x c then ("", h :: t) else (String x h, t)
  end.

Definition between (lo hi : nat) (c : ascii) : bool := Nat.leb lo (nat_of_ascii c) && Nat.leb (nat_of_ascii c) hi.
Definition is_digit (c : ascii) : bool := between 48 57 c.
Definition is_alphabetic (c : ascii) : bool := between 65 90 c || between 97 122 c.

Fixpoint all_of (p : ascii -> bool) (s : string) : bool :=
  match s with
  | EmptyString => true
  | String c r => p c && all_of p r
  end.

Fixpoint any_of (p : ascii -> bool) (s : string) : bool :=
  match s with
  | EmptyString => false
  | String c r => p c || any_of p r
  end.

(* path.rs 60-78 *)
Definition is_valid_graphql_name (s : string) : bool :=
  match s with
  | EmptyString => false
  | String c r =>
      (is_alphabetic c || Ascii.eqb c "_") && all_of (fun c => is_alphabetic c || is_digit c || Ascii.eqb c "_") r
  end.

(* `strip_prefix` of a text *)
Fixpoint strip_prefix (p s : string) : option string :=
  match p, s with
  | EmptyString, _ => Some s
  | String x p', String y s' => if Ascii.eqb x y then strip_prefix p' s' else None
  | String _ _, EmptyString => None
  end.

(* The bytes of a character after its first. *)
Definition continuation (c : ascii) : bool := between 128 191 c.

(* `chars().position`: the number of characters before the first `c` *)
Fixpoint char_position (c : ascii) (s : string) : option nat :=
  match s with
  | EmptyString => None
  | String x r =>
      if Ascii.eqb x c then Some 0
      else option_map (fun i => if continuation x then i else S i) (char_position c r)
  end.

(* `&s[..i]` and `&s[i..]` *)
Fixpoint slice (i : nat) (s : string) : outcome (string * string) :=
  match i, s with
  | O, String x _ => if continuation x then Panicked else Parsed ("", s)
  | O, EmptyString => Parsed ("", "")
  | S _, EmptyString => Panicked
  | S i', String x r => bind (slice i' r) (fun p => Parsed (String x (fst p), snd p))
  end.

(* The last character. *)
Fixpoint unsnoc (s : string) : option (string * ascii) :=
  match s with
  | EmptyString => None
  | String c r =>
      match unsnoc r with
      | None => Some ("", c)
      | Some (m, l) => Some (String c m, l)
      end
  end.

(* `str::parse::<usize>` *)
Definition usize_bound : N := 18446744073709551616.

Definition digit_value (c : ascii) : option N := if is_digit c then Some (N_of_ascii c - 48)%N else None.

Fixpoint read_digits (acc : N) (s : string) : option N :=
  match s with
  | EmptyString => Some acc
  | String c r =>
      match digit_value c with
      | None => None
      | Some d =>
          let v := (acc * 10 + d)%N in
          if N.ltb v usize_bound then read_digits v r else None
      end
  end.

Definition parse_usize (s : string) : option N :=
  match s with
  | EmptyString => None
  | String c r =>
      if Ascii.eqb c "+" then match r with EmptyString => None | _ => read_digits 0 r end
      else read_digits 0 s
  end.

(* 130-142 *)
Definition parse_index (s : string) : outcome N :=
  match s with
  | EmptyString => Refused
  | String c r =>
      if Ascii.eqb c "[" then
        match unsnoc r with
        | Some (idx, l) =>
            if Ascii.eqb l "]" then
              if any_of is_digit idx then match parse_usize idx with Some n => Parsed n | None => Refused end
              else Refused
            else Refused
        | None => Refused
        end
      else Refused
  end.

(* 110-128 *)
Definition parse_name_and_optional_index (s : string) : outcome (string * option N) :=
  match char_position "[" s with
  | None => if is_valid_graphql_name s then Parsed (s, None) else Refused
  | Some i =>
      bind (slice i s) (fun p =>
        if is_valid_graphql_name (fst p)
        then bind (parse_index (snd p)) (fun n => Parsed (fst p, Some n))
        else Refused)
  end.

(* 80-107 *)
Definition parse_path_in_field (segs : list string) : outcome (option in_field) :=
  match segs with
  | nil => Parsed None
  | [seg] =>
      if String.eqb seg "" then Refused
      else
        match strip_prefix "@" seg with
        | Some suffix =>
            bind (parse_name_and_optional_index suffix) (fun p =>
              match p with
              | (n, Some i) => Parsed (Some (FDirective n i))
              | (_, None) => Refused
              end)
        | None => if is_valid_graphql_name seg then Parsed (Some (FArg seg)) else Refused
        end
  | _ => Refused
  end.

(* 43-78 *)
Definition parse_path_in_type (segs : list string) : outcome (option in_type) :=
  match segs with
  | nil => Parsed None
  | seg :: rest =>
      if String.eqb seg "" then Refused
      else
        match strip_prefix "@" seg with
        | Some suffix =>
            bind (parse_name_and_optional_index suffix) (fun p =>
              match rest, p with
              | nil, (n, Some i) => Parsed (Some (TDirective n i))
              | _, _ => Refused
              end)
        | None =>
            match strip_prefix "&" seg with
            | Some suffix =>
                if is_valid_graphql_name suffix
                then match rest with nil => Parsed (Some (TImpl suffix)) | _ => Refused end
                else Refused
            | None =>
                if is_valid_graphql_name seg
                then bind (parse_path_in_field rest) (fun q => Parsed (Some (TField seg q)))
                else Refused
            end
        end
  end.

(* 4-41 *)
Definition parse (s : string) : outcome gpath :=
  let (first, rest) := split "." s in
  if String.eqb first "" then Refused
  else
    match strip_prefix ":schema" first with
    | Some suffix =>
        match rest with
        | nil => if String.eqb suffix "" then Parsed GSchema else bind (parse_index suffix) (fun i => Parsed (GSchemaExt i))
        | _ => Refused
        end
    | None =>
        match strip_prefix "@" first with
        | Some n =>
            if is_valid_graphql_name n then match rest with nil => Parsed (GDirective n) | _ => Refused end else Refused
        | None =>
            bind (parse_name_and_optional_index first) (fun p =>
              match p with
              | (n, Some i) => bind (parse_path_in_type rest) (fun q => Parsed (GTypeExt n i q))
              | (n, None) => bind (parse_path_in_type rest) (fun q => Parsed (GType n q))
              end)
        end
    end.

(** patch/paths.rs 132-137; that there are no more than three segments is a
    debug assertion. *)
Definition split_path (s : string) : string * string * string :=
  let (h, t) := split "." s in (h, nth 0 t "", nth 1 t "").

(** The paths of changes (state.rs; also directive definitions have the path of
    a type). *)
Definition gpath_of (p : path) : gpath :=
  match p with
  | PSchema => GSchema
  | PSchemaExt => GSchemaExt 0
  | PType n => GType n None
  | PField n f => GType n (Some (TField f None))
  | PImpl n i => GType n (Some (TImpl i))
  | PArg n f a => GType n (Some (TField f (Some (FArg a))))
  end.

(** The cases of the tests in path.rs. *)
Example parse_errors :
  forallb (fun s => match parse s with Refused => true | _ => false end)
    [""; "s:"; "s:meow"; ":schema[-1]"; ":schema.something"; ":s"; ":s[1]"; ":something"; "t:something"; "something.:s"; "10";
     "test."; "test[10]."; "test.@siblings."; "myObject._abc1.@requires"; "_my_object.@key"; "@"; "_my_object.@"; "@test[0]";
     "myObject.&MyInterface.a"; "myObject.&MyInterface."] = true.
Proof. vm_compute. reflexivity. Qed.

Example parse_round_trips :
  forallb (fun s => match parse s with Parsed p => String.eqb (display p) s | _ => false end)
    [":schema"; ":schema[0]"; ":schema[1]"; ":schema[100]"; "@meow"; "@deprecated"; "@something__else"; "@join__type"; "my_union";
     "__my_input_object[32]"; "_my_object.id"; "_my_object.@key[0]"; "myObject[10].id"; "myObject.@join__type[0]";
     "myObject._abc1"; "myObject._abc1.@requires[0]"; "myObject._abc1.@requires[100]"; "myObject._abc1.arg1";
     "myObject.&MyInterface"] = true.
Proof. vm_compute. reflexivity. Qed.
