(** Model of @skip and @include: from the selection sets of an operation to the keys of the response.
    Sources: crates/engine/query-solver/src/solution_space/builder/operation_fields.rs,
    crates/engine/src/prepare/operation_plan/query_modifications.rs,
    crates/engine/src/prepare/cached/builder/shapes/mod.rs and
    crates/engine/src/response/write/deserialize/object/fields.rs.
    Simplifications: fragments are expanded (a spread is a fragment with a type condition); arguments,
    [__typename] fields, extra fields and derived entities are left out; all fields are resolved by one
    subgraph; the fields expected for an object type are those whose type conditions hold (C11). *)
From Coq Require Import List Arith NArith Bool.
Import ListNotations.

(** operation/src/model/generated/directive.rs:21-24; the number is the id of the condition's value. *)
Inductive dir := Include (v : nat) | Skip (v : nat).
Definition dir_leb (a b : dir) : bool :=
  match a, b with
  | Include v, Include w => v <=? w
  | Include _, Skip _ => true
  | Skip _, Include _ => false
  | Skip v, Skip w => v <=? w
  end.
Definition dir_eq_dec (a b : dir) : {a = b} + {a <> b}.
Proof. decide equality; apply Nat.eq_dec. Defined.
Fixpoint insert_dir (d : dir) (l : list dir) : list dir :=
  match l with [] => [d] | x :: l' => if dir_leb d x then d :: l else x :: insert_dir d l' end.
Definition sort_dirs (l : list dir) : list dir := fold_right insert_dir [] l.

(** A field: response key, type its definition belongs to, directives, composite output type and
    selection set.  A fragment: type condition, directives, selection set. *)
Inductive selection :=
| Field (key entity : nat) (dirs : list dir) (out : option nat) (sub : list selection)
| Fragment (cond : option nat) (dirs : list dir) (sels : list selection).

(** What [add_operation_field] is called with. *)
Record occurrence := { o_key : nat; o_entity : nat; o_conds : list nat; o_dirs : list dir; o_out : option nat; o_sub : list selection }.

Section Ingest.
(** Possible object types of a type. *)
Variable possible : nat -> list nat.

(** operation_fields.rs:217-226 *)
Definition can_be_present (output ty : nat) : bool :=
  (output =? ty) || existsb (fun t => existsb (Nat.eqb t) (possible ty)) (possible output).

(** operation_fields.rs:118-215; the directive list is the one [ingest_directives] (414-440) builds. *)
Fixpoint flat (output : nat) (conds : list nat) (dirs : list dir) (s : selection) : list occurrence :=
  match s with
  | Field key entity ds out sub =>
      if can_be_present output entity
      then [{| o_key := key; o_entity := entity; o_conds := conds; o_dirs := sort_dirs (dirs ++ ds); o_out := out; o_sub := sub |}]
      else []
  | Fragment None ds sels => flat_map (flat output conds (dirs ++ ds)) sels
  | Fragment (Some ty) ds sels =>
      if can_be_present output ty
      then flat_map (flat output (if output =? ty then conds else conds ++ [ty]) (dirs ++ ds)) sels
      else []
  end.

(** A field node of the query graph; node [i] of the list has number [S i], the root is 0. *)
Record node := { n_parent : nat; n_key : nat; n_conds : list nat; n_dirs : list dir; n_pos : N }.
Record entry := { e_depth : nat; e_parent : nat; e_out : nat; e_sels : list selection }.
Record state := { nodes : list node; queue : list entry; next_pos : N; depth : nat; bloom : nat -> N }.

Definition same (p : nat) (o : occurrence) (n : node) : bool :=
  (n_parent n =? p) && (n_key n =? o_key o) &&
  (if list_eq_dec Nat.eq_dec (n_conds n) (o_conds o) then true else false) &&
  (if list_eq_dec dir_eq_dec (n_dirs n) (o_dirs o) then true else false).
Fixpoint find_ix {A} (f : A -> bool) (l : list A) : option nat :=
  match l with
  | [] => None
  | x :: l' => if f x then Some 0 else match find_ix f l' with Some i => Some (S i) | None => None end
  end.
Definition bloom_bit (key : nat) : N := N.of_nat (key mod 63).

(** operation_fields.rs:229-412: merge with an existing node of the same parent, key, type conditions
    and directives, looked for only if the Bloom filter of the parent says so; else create one. *)
Definition add_field (p : nat) (st : state) (o : occurrence) : state :=
  let found := if N.testbit (bloom st p) (bloom_bit (o_key o)) then find_ix (same p o) (nodes st) else None in
  let bl q := if q =? p then N.setbit (bloom st p) (bloom_bit (o_key o)) else bloom st q in
  let '(ns, np, i) :=
    match found with
    | Some i => (nodes st, next_pos st, i)
    | None => (nodes st ++ [{| n_parent := p; n_key := o_key o; n_conds := o_conds o; n_dirs := o_dirs o; n_pos := next_pos st |}],
               N.modulo (next_pos st + 1) 65536, List.length (nodes st))
    end in
  {| nodes := ns;
     queue := match o_out o with
              | Some ty => queue st ++ [{| e_depth := S (depth st); e_parent := S i; e_out := ty; e_sels := o_sub o |}]
              | None => queue st
              end;
     next_pos := np; depth := depth st; bloom := bl |}.

Definition occurrences (e : entry) : list occurrence := flat_map (flat (e_out e) [] []) (e_sels e).
(** operation_fields.rs:82-106, one turn of the loop. *)
Definition step (st : state) (e : entry) : state :=
  let np := if depth st <? e_depth e then 0%N else next_pos st in
  let d := if depth st <? e_depth e then e_depth e else depth st in
  fold_left (add_field (e_parent e)) (occurrences e)
    {| nodes := nodes st; queue := queue st; next_pos := np; depth := d; bloom := bloom st |}.
Fixpoint ingest_loop (fuel : nat) (st : state) : option (list node) :=
  match fuel with
  | 0 => None
  | S fuel' =>
      match queue st with
      | [] => Some (nodes st)
      | e :: q => ingest_loop fuel' (step {| nodes := nodes st; queue := q; next_pos := next_pos st; depth := depth st; bloom := bloom st |} e)
      end
  end.
Fixpoint sel_size (s : selection) : nat :=
  match s with
  | Field _ _ _ _ sub => S (list_sum (map sel_size sub))
  | Fragment _ _ sels => S (list_sum (map sel_size sels))
  end.
(** operation_fields.rs:32-60 *)
Definition ingest (root : nat) (sels : list selection) : option (list node) :=
  ingest_loop (2 + list_sum (map sel_size sels))
    {| nodes := []; queue := [{| e_depth := 0; e_parent := 0; e_out := root; e_sels := sels |}];
       next_pos := 0%N; depth := 0; bloom := fun _ => 0%N |}.
End Ingest.

Section Respond.
Variable possible : nat -> list nat.
(** Values of the conditions. *)
Variable env : nat -> bool.
(** Comparison of the strings of response keys. *)
Variable key_cmp : nat -> nat -> comparison.
(** Sorting of the fields of a shape, see [field_cmp]. *)
Variable sort : list (nat * node) -> list (nat * node).

(** query_modifications.rs:240-265 and 390-408 *)
Definition included (n : node) : bool :=
  negb (existsb (fun d => match d with Include v => negb (env v) | Skip v => env v end) (n_dirs n)).

Fixpoint number (i : nat) (l : list node) : list (nat * node) :=
  match l with [] => [] | x :: l' => (i, x) :: number (S i) l' end.
(** Fields of the shape of an object of type [ty] under the fields [parents]. *)
Definition shape_fields (ns : list node) (parents : list nat) (ty : nat) : list (nat * node) :=
  filter (fun x => existsb (Nat.eqb (n_parent (snd x))) parents &&
                   forallb (fun c => existsb (Nat.eqb ty) (possible c)) (n_conds (snd x))) (number 1 ns).
(** shapes/mod.rs:500-512 (and its siblings) *)
Definition field_cmp (a b : nat * node) : comparison :=
  match key_cmp (n_key (snd a)) (n_key (snd b)) with
  | Eq => N.compare (n_pos (snd a)) (n_pos (snd b))
  | c => c
  end.
(** shapes/mod.rs:366-394: consecutive fields with the same response key, with the first one. *)
Fixpoint group_fields (first : nat * node) (group : list (nat * node)) (l : list (nat * node)) : list ((nat * node) * list (nat * node)) :=
  match l with
  | [] => [(first, group)]
  | x :: l' => if n_key (snd x) =? n_key (snd first) then group_fields first (group ++ [x]) l'
               else (first, group) :: group_fields x [x] l'
  end.
Definition groups (l : list (nat * node)) : list ((nat * node) * list (nat * node)) :=
  match l with [] => [] | x :: l' => group_fields x [x] l' end.

(** Is the key at the end of the path part of the response?  A path gives for each level the type of
    the object and the key followed.  fields.rs:392-421, field.rs:63-77: the first field of the group
    decides; its nested shape covers the selection sets of the whole group (shapes/mod.rs:608-660). *)
Fixpoint emitted (ns : list node) (parents : list nat) (path : list (nat * nat)) : bool :=
  match path with
  | [] => true
  | (ty, k) :: path' =>
      match find (fun g => n_key (snd (fst g)) =? k) (groups (sort (shape_fields ns parents ty))) with
      | None => false
      | Some (first, group) => included (snd first) && emitted ns (map fst group) path'
      end
  end.
End Respond.
