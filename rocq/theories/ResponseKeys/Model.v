(** Model of the choice of response keys for the queries sent to subgraphs.
    Source: crates/engine/query-solver/src/post_process/response_key.rs (14-340).
    Simplifications: the walk over the graph (76-122) only yields a list of selection sets, each with its
    parent type and its fields with the subgraph they are requested from; the list is the input here, so any
    order is covered.  Fields, definitions and types are numbers, looked up in a schema that is a record of
    functions.  Keys are numbers, the place of their text in the list of texts of the operation (a string
    interner).  Of arguments only a number is kept that differs when arguments differ; the code doesn't look
    at it. *)
From Coq Require Import String Ascii NArith List Bool Arith.
Import ListNotations.
Local Open Scope string_scope.

Record definition := {
  d_name : N;             (* name_id, a u32 *)
  d_type : nat;           (* ty().definition_id *)
  d_distinct : list nat   (* subgraphs of subgraph_type_records *)
}.
Record schema := {
  definitions : nat -> definition;
  text : N -> string;
  is_object : nat -> bool;
  interface : nat -> option (list N)   (* names of the fields of an interface *)
}.
Record qfield := { q_key : option nat; q_def : option nat; q_args : nat }.
(** FieldRenameConsistencyKey (39-48) *)
Inductive ckey := CDistinct (key def : nat) | CTypename (output : nat).
Definition ckey_eqb (a b : ckey) : bool :=
  match a, b with
  | CDistinct k d, CDistinct k' d' => Nat.eqb k k' && Nat.eqb d d'
  | CTypename t, CTypename t' => Nat.eqb t t'
  | _, _ => false
  end.
(** KeyGenerationContext (31-37); [s_sub] is field_to_subgraph_key. *)
Record state := { s_keys : list string; s_renames : list (ckey * nat); s_fields : list qfield; s_sub : list (option nat) }.

Definition field_at (st : state) (f : nat) : qfield := nth f (s_fields st) {| q_key := None; q_def := None; q_args := 0 |}.
Definition sub_at (st : state) (f : nat) : option nat := nth f (s_sub st) None.
Fixpoint set_nth {A} (n : nat) (x : A) (l : list A) : list A :=
  match n, l with
  | _, [] => []
  | O, _ :: l => x :: l
  | S n, y :: l => y :: set_nth n x l
  end.
Fixpoint index (s : string) (l : list string) : option nat :=
  match l with
  | [] => None
  | x :: l => if String.eqb x s then Some 0 else match index s l with Some i => Some (S i) | None => None end
  end.
Fixpoint find_rename (c : ckey) (l : list (ckey * nat)) : option nat :=
  match l with [] => None | (c', k) :: l => if ckey_eqb c c' then Some k else find_rename c l end.

(** hex::encode_upper (310-311, 317) *)
Definition hex_digit (n : N) : ascii := ascii_of_N (if (n <? 10)%N then 48 + n else 55 + n)%N.
Fixpoint hex_digits (fuel : nat) (n : N) (acc : string) : string :=
  match fuel with
  | O => acc
  | S fuel => if (n =? 0)%N then acc else hex_digits fuel (n / 16) (String (hex_digit (n mod 16)) acc)
  end.
(** Without the zeros at the start: four bytes have eight digits. *)
Definition short_id (n : N) : string := hex_digits 8 n "".
Definition byte_hex (i : nat) : string :=
  String (hex_digit (N.of_nat i / 16)) (String (hex_digit (N.of_nat i mod 16)) "").
Definition bytes : list nat := seq 0 256.
(** 309-336: the keys that are tried. *)
Definition candidates (name : string) (id : N) : list string :=
  map (fun i => ("_" ++ name ++ short_id id) ++ byte_hex i) bytes.

Definition in_use (s : string) (l : list string) : bool := existsb (String.eqb s) l.
(** get_or_intern for a text that isn't there, and field_renames.insert (291-296, 322-327) *)
Definition intern (s : string) (c : option ckey) (st : state) : state * nat :=
  let k := List.length (s_keys st) in
  ({| s_keys := (s_keys st ++ [s])%list;
      s_renames := match c with Some c => (c, k) :: s_renames st | None => s_renames st end;
      s_fields := s_fields st; s_sub := s_sub st |}, k).

Section Schema.
Variable sch : schema.

(** generate_new_key (276-339); [None]: the panic of 335. *)
Definition generate (st : state) (used : list nat) (c : option ckey) (id : N) : option (state * nat) :=
  match match c with Some c => find_rename c (s_renames st) | None => None end with
  | Some k => Some (st, k)
  | None =>
      let name := text sch id in
      match index name (s_keys st) with
      | None => Some (intern name c st)
      | Some key =>
          if match c with None => negb (existsb (Nat.eqb key) used) | Some _ => false end then Some (st, key)
          else
            match find (fun s => negb (in_use s (s_keys st))) (candidates name id) with
            | Some s => Some (intern s c st)
            | None => None
            end
      end
  end.

(** A selection set: its parent type, and its fields with their subgraphs. *)
Record selection := { v_parent : nat; v_fields : list (nat * nat) }.

(** 135-164: why a field with a key is renamed, if it is. *)
Definition reason (st : state) (parent : nat) (sf : nat * nat) : option (ckey * N) :=
  let '(subgraph, f) := sf in
  match q_key (field_at st f), q_def (field_at st f) with
  | Some key, Some def =>
      let d := definitions sch def in
      if negb (is_object sch parent) && existsb (Nat.eqb subgraph) (d_distinct d) then Some (CDistinct key def, d_name d)
      else if String.eqb (nth key (s_keys st) "") "__typename" then Some (CTypename (d_type d), d_name d)
      else None
  | _, _ => None
  end.
(** 129-168 *)
Definition rename_one (parent : nat) (acc : option (state * list nat)) (sf : nat * nat) : option (state * list nat) :=
  match acc with
  | None => None
  | Some (st, used) =>
      match reason st parent sf with
      | None => Some (st, used)
      | Some (c, id) =>
          match generate st used (Some c) id with
          | None => None
          | Some (st, k) =>
              Some ({| s_keys := s_keys st; s_renames := s_renames st; s_fields := s_fields st;
                       s_sub := set_nth (snd sf) (Some k) (s_sub st) |}, (used ++ [k])%list)
          end
      end
  end.
Definition set_key (f k : nat) (st : state) : state :=
  let q := field_at st f in
  {| s_keys := s_keys st; s_renames := s_renames st;
     s_fields := set_nth f {| q_key := Some k; q_def := q_def q; q_args := q_args q |} (s_fields st); s_sub := s_sub st |}.
(** 182-203: the key of another field with the same name, if the interface has a field with it. *)
Definition reused (st : state) (parent : nat) (fields : list (nat * nat)) (name : N) : option nat :=
  if match interface sch parent with Some names => existsb (N.eqb name) names | None => false end then
    match find (fun sf =>
      match q_key (field_at st (snd sf)), q_def (field_at st (snd sf)) with
      | Some _, Some d => N.eqb (d_name (definitions sch d)) name
      | _, _ => false
      end) fields with
    | Some sf => q_key (field_at st (snd sf))
    | None => None
    end
  else None.
(** 170-209 *)
Definition key_one (parent : nat) (fields : list (nat * nat)) (acc : option (state * list nat)) (sf : nat * nat) : option (state * list nat) :=
  match acc with
  | None => None
  | Some (st, used) =>
      match q_key (field_at st (snd sf)), q_def (field_at st (snd sf)) with
      | None, Some def =>
          let name := d_name (definitions sch def) in
          match reused st parent fields name with
          | Some k => Some (set_key (snd sf) k st, used)
          | None =>
              match generate st used None name with
              | None => None
              | Some (st, k) => Some (set_key (snd sf) k st, (used ++ [k])%list)
              end
          end
      | _, _ => Some (st, used)
      end
  end.
(** push_field (60-66), for all fields *)
Definition client_keys (st : state) (fields : list (nat * nat)) : list nat :=
  flat_map (fun sf => match q_key (field_at st (snd sf)) with Some k => [k] | None => [] end) fields.
(** 124-210 *)
Definition adjust_set (st : state) (v : selection) : option state :=
  match fold_left (rename_one (v_parent v)) (v_fields v) (Some (st, client_keys st (v_fields v))) with
  | None => None
  | Some acc =>
      match fold_left (key_one (v_parent v) (v_fields v)) (v_fields v) (Some acc) with
      | None => None
      | Some (st, _) => Some st
      end
  end.
(** 76-122 *)
Fixpoint adjust (st : state) (l : list selection) : option state :=
  match l with
  | [] => Some st
  | v :: l => match adjust_set st v with Some st => adjust st l | None => None end
  end.
(** 14-29 *)
Definition initial (keys : list string) (fields : list qfield) : state :=
  {| s_keys := keys; s_renames := []; s_fields := fields; s_sub := map (fun _ => None) fields |}.
End Schema.

(** The key of a field in the query of its subgraph. *)
Definition sent_key (st : state) (f : nat) : option nat :=
  match sub_at st f with Some k => Some k | None => q_key (field_at st f) end.
