(** The suggestions of the linter for names.
    crates/graphql-lint/src/lib.rs:137-166 case_check, 222-300 visit_field; the heck crate for ASCII. *)
From Coq Require Import List Bool Ascii String NArith.
Import ListNotations.
Open Scope list_scope.

(** Names are lists of characters. *)
Definition text := list ascii.

Definition between (lo hi : N) (c : ascii) : bool := N.leb lo (N_of_ascii c) && N.leb (N_of_ascii c) hi.
Definition is_upper (c : ascii) : bool := between 65 90 c.
Definition is_lower (c : ascii) : bool := between 97 122 c.
Definition is_digit (c : ascii) : bool := between 48 57 c.
Definition alnum (c : ascii) : bool := is_upper c || is_lower c || is_digit c.
Definition up (c : ascii) : ascii := if is_lower c then ascii_of_N (N_of_ascii c - 32) else c.
Definition down (c : ascii) : ascii := if is_upper c then ascii_of_N (N_of_ascii c + 32) else c.

(** heck: WordMode *)
Inductive mode := Boundary | Lowercase | Uppercase.

(** heck: transform, within one part; [cur] is what has been read of the word. *)
Fixpoint part_words (m : mode) (cur : text) (s : text) : list text :=
  match s with
  | [] => []
  | c :: rest =>
    match rest with
    | [] => [cur ++ [c]]
    | next :: _ =>
      let m' := if is_lower c then Lowercase else if is_upper c then Uppercase else m in
      match m', is_upper next with
      | Lowercase, true => (cur ++ [c]) :: part_words Boundary [] rest
      | _, _ =>
        match m, is_upper c && is_lower next with
        | Uppercase, true => cur :: part_words Boundary [c] rest
        | _, _ => part_words m' (cur ++ [c]) rest
        end
      end
    end
  end.

(** str::split at characters that are not alphanumeric. *)
Fixpoint parts (s : text) : list text :=
  match s with
  | [] => [[]]
  | c :: rest =>
    if alnum c then match parts rest with p :: ps => (c :: p) :: ps | [] => [[c]] end
    else [] :: parts rest
  end.

(** heck: transform *)
Definition words (s : text) : list text := flat_map (part_words Boundary []) (parts s).

Definition capital (w : text) : text := match w with [] => [] | c :: r => up c :: map down r end.

Inductive case := Pascal | ShoutySnake | Camel.

Fixpoint join (ws : list text) : text :=
  match ws with
  | [] => []
  | [w] => w
  | w :: rest => w ++ ["_"%char] ++ join rest
  end.

(** heck: ToPascalCase, ToShoutySnakeCase, ToLowerCamelCase *)
Definition convert (k : case) (s : text) : text :=
  match k with
  | Pascal => flat_map capital (words s)
  | ShoutySnake => join (map (map up) (words s))
  | Camel => match words s with [] => [] | w :: ws => map down w ++ flat_map capital ws end
  end.

(** The expression for letters followed by two underscores and a character. *)
Fixpoint namespaced (seen : bool) (s : text) : bool :=
  match s with
  | [] => false
  | c :: rest =>
    (seen && match s with a :: b :: _ :: _ => Ascii.eqb a "_" && Ascii.eqb b "_" | _ => false end) ||
    ((is_upper c || is_lower c) && namespaced true rest)
  end.

(** The exceptions. *)
Definition exempt (s : text) : bool :=
  match s with
  | c :: _ => Ascii.eqb c "_" || namespaced false s
  | [] => false
  end.

Fixpoint same (a b : text) : bool :=
  match a, b with
  | [], [] => true
  | x :: a, y :: b => Ascii.eqb x y && same a b
  | _, _ => false
  end.

(** crates/graphql-lint/src/lib.rs:137-166 case_check: the suggestion, if there is one. *)
Definition case_check (k : case) (s : text) : option text :=
  if exempt s then None else if same (convert k s) s then None else Some (convert k s).

(** Types whose fields are checked for more than their case. *)
Inductive parent := Query | Mutation | Subscription | OtherType.

Definition t (s : string) : text := list_ascii_of_string s.

Fixpoint starts (p s : text) : bool :=
  match p, s with
  | [], _ => true
  | a :: p, b :: s => Ascii.eqb a b && starts p s
  | _, _ => false
  end.

Definition ends (p s : text) : bool := starts (rev p) (rev s).

Inductive warning := Rename (fix_ : text) | Prefix (p : text) | Suffix (p : text).

(** The first prefix that is there. *)
Fixpoint first_prefix (ps : list text) (s : text) : list warning :=
  match ps with
  | [] => []
  | p :: rest => if starts p s then [Prefix p] else first_prefix rest s
  end.

(** crates/graphql-lint/src/lib.rs:222-300 visit_field *)
Definition visit_field (p : parent) (s : text) : list warning :=
  if starts (t "__") s then []
  else
    match case_check Camel s with Some f => [Rename f] | None => [] end ++
    match p with
    | Query => first_prefix [t "query"; t "get"; t "list"] s ++ (if ends (t "Query") s then [Suffix (t "Query")] else [])
    | Mutation => first_prefix [t "mutation"; t "put"; t "post"; t "patch"] s ++ (if ends (t "Mutation") s then [Suffix (t "Mutation")] else [])
    | Subscription =>
      (if starts (t "subscription") s then [Prefix (t "subscription")] else []) ++
      (if ends (t "Subscription") s then [Suffix (t "Subscription")] else [])
    | OtherType => []
    end.
