(** Model of the marking of the response shapes that contain a denied field.
    Sources: crates/engine/src/prepare/cached/builder/shapes/mod.rs (numbering of shapes),
    crates/engine/src/prepare/operation_plan/query_modifications.rs, [finalize] (273-283, 345-372),
    crates/engine/id-newtypes/src/many.rs and range.rs.
    Simplifications: only the ids of fields and shapes are kept (keys, positions, types and typename
    fields are dropped); the input is the tree of groups the builder walks through (C11 and C13 model how
    fields are selected and grouped); the unstable sorts are insertion sorts. *)
From Coq Require Import List Arith Bool.
Import ListNotations.

(** DataOrLookupFieldId *)
Inductive fid := Data (f : nat) | Lookup (f : nat).
Definition fid_leb (a b : fid) : bool :=
  match a, b with
  | Data x, Data y => x <=? y
  | Data _, Lookup _ => true
  | Lookup _, Data _ => false
  | Lookup x, Lookup y => x <=? y
  end.

(** What a group of fields with one response key expands to: a scalar or enum, a derived entity (groups of
    fields: the first and the others), or objects (one per shape created for the output type), each with
    its groups: first field, other fields, shape. *)
Inductive shape :=
| Leaf
| Derived (groups : list (nat * list nat))
| Objects (os : list (list (fid * list nat * shape))).
Definition group := (fid * list nat * shape)%type.

(** FieldShapeRecord.id of every field shape; ConcreteShapeRecord.field_shape_ids of every concrete shape;
    [data_fields_shape_count]. *)
Record state := { st_fields : list fid; st_concrete : list (nat * nat); st_count : nat -> nat }.

Definition is_derived (s : shape) : bool := match s with Derived _ => true | _ => false end.
(** mod.rs:389-394 *)
Definition group_leb (a b : bool * fid) : bool :=
  match fst a, fst b with
  | false, true => true
  | true, false => false
  | _, _ => fid_leb (snd a) (snd b)
  end.
Fixpoint insert_group (g : bool * fid) (l : list (bool * fid)) : list (bool * fid) :=
  match l with [] => [g] | x :: l' => if group_leb g x then g :: l else x :: insert_group g l' end.
Definition sort_groups (l : list (bool * fid)) : list (bool * fid) := fold_right insert_group [] l.

Definition bump (c : nat -> nat) (f : nat) : nat -> nat := fun g => if g =? f then S (c g) else c g.
Definition bump_fid (c : nat -> nat) (f : fid) : nat -> nat := match f with Data f => bump c f | Lookup _ => c end.
Definition bump_group (c : nat -> nat) (g : group) : nat -> nat := fold_left bump (snd (fst g)) (bump_fid c (fst (fst g))).

(** mod.rs:387-407, 425, 829-833: the fields of the shape are appended and the shape is pushed. *)
Definition own_fields (gs : list group) : list fid :=
  map snd (sort_groups (map (fun g => (is_derived (snd g), fst (fst g))) gs)).
Definition push_concrete (st : state) (gs : list group) : state :=
  let start := length (st_fields st) in
  {| st_fields := st_fields st ++ own_fields gs;
     st_concrete := st_concrete st ++ [(start, start + length (own_fields gs))];
     st_count := fold_left bump_group gs (st_count st) |}.
(** mod.rs:534-605: only the first field of a group is counted; no concrete shape is pushed. *)
Definition push_derived (st : state) (gs : list (nat * list nat)) : state :=
  {| st_fields := st_fields st ++ map snd (sort_groups (map (fun g => (false, Data (fst g))) gs));
     st_concrete := st_concrete st;
     st_count := fold_left (fun c g => bump c (fst g)) gs (st_count st) |}.

(** mod.rs:284-313, 330-435 and 437-470: the shapes of the groups are created before the object's own. *)
Fixpoint build (st : state) (s : shape) : state :=
  match s with
  | Leaf => st
  | Derived gs => push_derived st gs
  | Objects os =>
      fold_left (fun st gs => push_concrete (fold_left (fun st g => build st (snd g)) gs st) gs) os st
  end.
(** mod.rs:45-70, one shape per query partition. *)
Definition build_all (partitions : list shape) : state :=
  fold_left build partitions {| st_fields := []; st_concrete := []; st_count := fun _ => 0 |}.

(** mod.rs:91-118: a range per data field, sized by the counts, then filled.  [nf]: number of data fields. *)
Definition allocate (nf : nat) (count : nat -> nat) : list nat * nat :=
  fold_left (fun acc f => (fst acc ++ [snd acc], snd acc + count f)) (seq 0 nf) ([], 0).
Fixpoint update (l : list nat) (i v : nat) : list nat :=
  match l, i with
  | [], _ => []
  | _ :: l', O => v :: l'
  | x :: l', S i => x :: update l' i v
  end.
(** [None]: an index is out of bounds, the Rust code panics. *)
Definition fill1 (acc : option (list nat * list nat)) (p : nat * fid) : option (list nat * list nat) :=
  match acc, snd p with
  | None, _ => None
  | Some acc, Lookup _ => Some acc
  | Some (ends, refs), Data f =>
      match nth_error ends f with
      | None => None
      | Some pos => if pos <? length refs then Some (update ends f (S pos), update refs pos (fst p)) else None
      end
  end.
Definition fill (starts : list nat) (len : nat) (fields : list fid) : option (list nat * list nat) :=
  fold_left fill1 (combine (seq 0 (length fields)) fields) (Some (starts, repeat 0 len)).
Definition slice (l : list nat) (s e : nat) : list nat := firstn (e - s) (skipn s l).

(** The shape ids of each data field. *)
Definition shape_ids (nf : nat) (st : state) : option (list (list nat)) :=
  let a := allocate nf (st_count st) in
  match fill (fst a) (snd a) (st_fields st) with
  | None => None
  | Some (ends, refs) => Some (map (fun p => slice refs (fst p) (snd p)) (combine (fst a) ends))
  end.

(** query_modifications.rs:275-282 and many.rs:18-23, 36-41. *)
Definition error_pairs (ids : list (list nat)) (errors : list (nat * nat)) : list (nat * nat) :=
  flat_map (fun fe => map (fun i => (i, snd fe)) (nth (fst fe) ids [])) errors.
Fixpoint insert_pair (p : nat * nat) (l : list (nat * nat)) : list (nat * nat) :=
  match l with [] => [p] | x :: l' => if fst p <=? fst x then p :: l else x :: insert_pair p l' end.
Definition sort_pairs (l : list (nat * nat)) : list (nat * nat) := fold_right insert_pair [] l.
Fixpoint dedup (l : list nat) : list nat :=
  match l with
  | [] => []
  | x :: l' => match l' with y :: _ => if x =? y then dedup l' else x :: dedup l' | [] => [x] end
  end.

(** query_modifications.rs:350-368: the loop over one range; [x] is [start + i]. *)
Inductive walked := Next (marked : bool) (current : nat) (rest : list nat) | Stop | Out_of_fuel.
Fixpoint walk (fuel x e current : nat) (rest : list nat) : walked :=
  match fuel with
  | O => Out_of_fuel
  | S fuel =>
      if x <? e then
        if x <? current then walk fuel (S x) e current rest
        else if x =? current then Next true current rest
        else match rest with [] => Stop | n :: rest' => walk fuel x e n rest' end
      else Next false current rest
  end.
(** query_modifications.rs:345-372 *)
Fixpoint scan (shapes : list (nat * nat)) (current : nat) (rest : list nat) : option (list bool) :=
  match shapes with
  | [] => Some []
  | (s, e) :: shapes' =>
      if current <? e then
        match walk (S (e - s + length rest)) s e current rest with
        | Next m c r => option_map (cons m) (scan shapes' c r)
        | Stop => Some (map (fun _ => false) shapes)
        | Out_of_fuel => None
        end
      else option_map (cons false) (scan shapes' current rest)
  end.
Definition mark (shapes : list (nat * nat)) (ids : list nat) : option (list bool) :=
  match ids with [] => Some (map (fun _ => false) shapes) | c :: rest => scan shapes c rest end.

(** [errors]: denied field and error.  The result: [concrete_shape_has_error]. *)
Definition has_error (nf : nat) (partitions : list shape) (errors : list (nat * nat)) : option (list bool) :=
  let st := build_all partitions in
  match shape_ids nf st with
  | None => None
  | Some ids => mark (st_concrete st) (dedup (map fst (sort_pairs (error_pairs ids errors))))
  end.
