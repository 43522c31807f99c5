(** Default values of arguments and input fields when the schema is built: the order in which they are
    coerced (crates/engine/schema/src/builder/graph/definitions.rs:178-188, 341-353, 673-707) and their
    coercion (crates/engine/schema/src/builder/coerce/schema.rs, coerce/mod.rs:14-16).

    Simplifications: errors are not told apart (the message and the path are dropped, only the definition
    they are about is kept); a record with the ids of its parts is the value itself (parts are written once
    and never changed); enum values are their names; the entries of a map stay as written instead of being
    sorted by their keys.  The order of the iteration over the hash map is given from outside: any key that
    is left may come next. *)
From Coq Require Import String List ZArith Bool Lia.
From Verif.Coercion Require Import Model.
From Verif.ExtArgs Require Import Model.
Import ListNotations.
Local Open Scope nat_scope.
Local Open Scope list_scope.

(** [ScalarType] *)
Inductive scalar := ScString | ScFloat | ScInt | ScBoolean | ScUnknown.

(** [TypeDefinitionId], the ones an input can have; an input object is its place in [objects]. *)
Inductive kind :=
| KScalar (s : scalar)
| KEnum (values : list string)
| KObject (o : nat).

(** [Wrapping]: whether the inner type is required and the lists from the outside in, [true] for a list that
    is not null. *)
Record wrapping := { inner_required : bool; lists : list bool }.

(** [InputValueDefinitionRecord] with what was written after the equals sign. *)
Record definition := {
  d_name : string;
  d_wrapping : wrapping;
  d_kind : kind;
  d_default : option value
}.

(** [InputObjectDefinitionRecord] *)
Record object := { one_of : bool; field_ids : list nat }.

(** The part of the graph that is read.  An input value is its place in [inputs]. *)
Record graph := { inputs : list definition; objects : list object }.

Definition no_definition : definition :=
  {| d_name := ""%string; d_wrapping := {| inner_required := false; lists := [] |}; d_kind := KScalar ScUnknown; d_default := None |}.
Definition input (g : graph) (id : nat) : definition := nth id (inputs g) no_definition.
Definition object_at (g : graph) (o : nat) : object := nth o (objects g) {| one_of := false; field_ids := [] |}.

(** [SchemaInputValueRecord], crates/engine/schema/src/input_value/mod.rs *)
Inductive record :=
| RNull
| RStr (s : string)
| REnum (s : string)
| RUnboundEnum (s : string)
| RInt (z : Z)
| RI64 (z : Z)
| RFloat (m e : Z)
| RBool (b : bool)
| RObject (fs : list (nat * record))
| RList (l : list record)
| RMap (fs : list (string * record)).

(** [ingest_arbitrary_value], schema.rs:264-297 *)
Fixpoint ingest (v : value) : record :=
  match v with
  | VNull => RNull
  | VStr s => RStr s
  | VInt z => RI64 z
  | VFloat m e => RFloat m e
  | VBool b => RBool b
  | VEnum s => RUnboundEnum s
  | VList l => RList (map ingest l)
  | VObj fs => RMap (map (fun f => (fst f, ingest (snd f))) fs)
  end.

(** [coerce_scalar_value], schema.rs:218-262 *)
Definition coerce_scalar (s : scalar) (v : value) : option record :=
  match s with
  | ScString => match v with VStr s => Some (RStr s) | _ => None end
  | ScFloat =>
    match v with
    | VInt z => let (m, e) := f64_of_Z z in Some (RFloat m e)
    | VFloat m e => Some (RFloat m e)
    | _ => None
    end
  | ScInt =>
    match v with
    | VInt z => option_map RInt (i32_try_from z)
    | VFloat m e => if can_coerce_to_int m e then Some (RInt (f64_as_i32 m e)) else None
    | _ => None
    end
  | ScBoolean => match v with VBool b => Some (RBool b) | _ => None end
  | ScUnknown => Some (ingest v)
  end.

(** [coerce_enum_value], schema.rs:189-216 *)
Definition coerce_enum (values : list string) (v : value) : option record :=
  match v with
  | VEnum s => if existsb (String.eqb s) values then Some (REnum s) else None
  | _ => None
  end.

Definition bind {A B} (o : option A) (f : A -> option B) : option B :=
  match o with Some a => f a | None => None end.

(** [Wrapping::is_non_null] *)
Definition non_null (w : wrapping) : bool :=
  match lists w with [] => inner_required w | l :: _ => l end.

Fixpoint wrap (n : nat) (r : record) : record := match n with O => r | S n => wrap n (RList [r]) end.

Section Coercion.
  Variable g : graph.
  (** [default_value_id]: the default values that were coerced already. *)
  Variable known : nat -> option record.

  Section Named.
    (** [coerce_named_type_value] for what is inside. *)
    Variable deeper : kind -> value -> option record.

    Fixpoint each (f : value -> option record) (l : list value) : option (list record) :=
      match l with
      | [] => Some []
      | v :: l => bind (f v) (fun r => option_map (cons r) (each f l))
      end.

    (** [coerce_type_value], schema.rs:42-90 *)
    Fixpoint coerce_type (required : bool) (ls : list bool) (k : kind) (v : value) : option record :=
      match ls with
      | [] =>
        match v with
        | VNull => if required then None else Some RNull
        | _ => deeper k v
        end
      | l :: ls =>
        match v with
        | VNull => if l then None else Some RNull
        | VList vs => option_map RList (each (coerce_type required ls k) vs)
        | _ => None
        end
      end.

    (** [coerce_input_value], schema.rs:25-40 *)
    Definition coerce_input (w : wrapping) (k : kind) (v : value) : option record :=
      match lists w, v with
      | [], _ | _, VNull | _, VList _ => coerce_type (inner_required w) (lists w) k v
      | _ :: _, _ => option_map (wrap (List.length (lists w))) (deeper k v)
      end.

    (** The fields of an input object that isn't a oneOf, schema.rs:147-175 *)
    Fixpoint coerce_fields (ids : list nat) (fs : list (string * value)) : option (list (nat * record)) :=
      match ids with
      | [] => match fs with [] => Some [] | _ :: _ => None end
      | id :: ids =>
        let d := input g id in
        match position (d_name d) fs with
        | Some i =>
          bind (nth_error fs i) (fun f =>
          bind (coerce_input (d_wrapping d) (d_kind d) (snd f)) (fun r =>
          option_map (cons (id, r)) (coerce_fields ids (swap_remove i fs))))
        | None =>
          match known id with
          | Some r => option_map (cons (id, r)) (coerce_fields ids fs)
          | None => if non_null (d_wrapping d) then None else coerce_fields ids fs
          end
        end
      end.

    (** [coerce_input_object_value], schema.rs:105-187 *)
    Definition coerce_object (o : object) (v : value) : option record :=
      match v with
      | VObj fs =>
        if one_of o then
          match fs with
          | [f] =>
            bind (find (fun id => String.eqb (d_name (input g id)) (fst f)) (field_ids o)) (fun id =>
            let d := input g id in
            option_map (fun r => RObject [(id, r)]) (coerce_input (d_wrapping d) (d_kind d) (snd f)))
          | _ => None
          end
        else option_map RObject (coerce_fields (field_ids o) fs)
      | _ => None
      end.
  End Named.

  (** [coerce_named_type_value], schema.rs:92-103.  The fuel bounds how deep the value is. *)
  Fixpoint coerce_named (fuel : nat) (k : kind) (v : value) : option record :=
    match fuel with
    | O => None
    | S fuel =>
      match k with
      | KScalar s => coerce_scalar s v
      | KEnum values => coerce_enum values v
      | KObject o => coerce_object (coerce_named fuel) (object_at g o) v
      end
    end.

  Fixpoint depth (v : value) : nat :=
    match v with
    | VList l => S (fold_right (fun v n => Nat.max (depth v) n) 0 l)
    | VObj fs => S (fold_right (fun f n => Nat.max (depth (snd f)) n) 0 fs)
    | _ => 1
    end.

  (** [GraphBuilder::coerce_input_value], schema.rs:13-22 *)
  Definition coerce (id : nat) (v : value) : option record :=
    let d := input g id in coerce_input (coerce_named (depth v)) (d_wrapping d) (d_kind d) v.
End Coercion.

(** *** The order *)

(** [default_values] (its keys), [seen], the default values set so far and the errors. *)
Record state := {
  left : list nat;
  seen : list nat;
  table : list (nat * record);
  errors : list nat
}.

Definition mem (n : nat) (l : list nat) : bool := existsb (Nat.eqb n) l.

Definition known_in (t : list (nat * record)) (id : nat) : option record :=
  option_map snd (find (fun p => Nat.eqb (fst p) id) t).

(** The end of the inner loop's body, definitions.rs:689-702 *)
Definition settle (g : graph) (id : nat) (s : state) : state :=
  if mem id (left s) then
    let l := filter (fun n => negb (Nat.eqb n id)) (left s) in
    match bind (d_default (input g id)) (coerce g (known_in (table s)) id) with
    | Some r => {| left := l; seen := seen s; table := (id, r) :: table s; errors := errors s |}
    | None => {| left := l; seen := seen s; table := table s; errors := errors s ++ [id] |}
    end
  else s.

(** The inner loop, definitions.rs:679-703; the stack is written from its top.  [None] is out of fuel. *)
Fixpoint inner (fuel : nat) (g : graph) (stack : list nat) (s : state) : option state :=
  match fuel with
  | O => None
  | S fuel =>
    match stack with
    | [] => Some s
    | id :: rest =>
      match d_kind (input g id) with
      | KObject o =>
        if mem o (seen s) then inner fuel g rest (settle g id s)
        else inner fuel g (rev (field_ids (object_at g o)) ++ id :: rest)
               {| left := left s; seen := o :: seen s; table := table s; errors := errors s |}
      | _ => inner fuel g rest (settle g id s)
      end
    end
  end.

(** How often the inner loop turns at most. *)
Definition turns (g : graph) : nat :=
  2 + fold_right (fun o n => S (List.length (field_ids (object_at g o))) + n) 0 (seq 0 (List.length (objects g))).

(** The outer loop, definitions.rs:677-704: [pick] is the first key of the iteration. *)
Fixpoint outer (fuel : nat) (pick : nat -> list nat -> nat) (g : graph) (s : state) : option state :=
  match left s with
  | [] => Some s
  | _ :: _ =>
    match fuel with
    | O => None
    | S n => bind (inner (turns g) g [pick fuel (left s)] s) (outer n pick g)
    end
  end.

Definition has_default (g : graph) (id : nat) : bool :=
  match d_default (input g id) with Some _ => true | None => false end.

(** [add_default_values], definitions.rs:673-707 *)
Definition add_default_values (pick : nat -> list nat -> nat) (g : graph) : option state :=
  let ids := filter (has_default g) (seq 0 (List.length (inputs g))) in
  outer (List.length ids) pick g {| left := ids; seen := []; table := []; errors := [] |}.
