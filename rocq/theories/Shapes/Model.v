(** Model of the partitioning of an output type into object shapes.
    Source: crates/engine/src/prepare/cached/builder/shapes/partition.rs and shapes/mod.rs,
    engine/schema/src/composite_type.rs, query-solver/src/solution_space/builder/operation_fields.rs.
    Object types are numbers, a set of possible types is a strictly increasing list, a bit set of
    fields is a binary number ([FixedBitSet] / [N.lor]). *)
From Coq Require Import List Arith NArith Bool.
Import ListNotations.

(** The two-index loop computing an intersection, used by partition.rs:178-190 and
    shapes/mod.rs:858-871 (the indices [l], [r] only grow: they are the list suffixes). *)
Fixpoint inter (xs : list nat) : list nat -> list nat :=
  fix go (ys : list nat) : list nat :=
  match xs, ys with
  | x :: xs', y :: ys' =>
      match Nat.compare x y with
      | Lt => inter xs' ys
      | Gt => go ys'
      | Eq => x :: inter xs' ys'
      end
  | _, _ => []
  end.

(** partition.rs:131-153; the loop with [left] in the output and [right] in the condition. *)
Fixpoint superset_loop (output : list nat) : list nat -> bool :=
  fix go (cond : list nat) : bool :=
  match output, cond with
  | l :: output', r :: cond' =>
      match Nat.compare l r with
      | Lt => false
      | Gt => go cond'
      | Eq => superset_loop output' cond'
      end
  | _, _ => match output with [] => true | _ => false end
  end.
Definition is_superset (cond output : list nat) : bool :=
  if List.length cond <? List.length output then false else superset_loop output cond.

(** Array update and swap (in bounds at every use: [left_len <= l] etc., see the proofs). *)
Definition set_nth (a : list nat) (i x : nat) : list nat := firstn i a ++ x :: skipn (S i) a.
Definition swap (a : list nat) (i j : nat) : list nat :=
  match nth_error a i, nth_error a j with
  | Some x, Some y => set_nth (set_nth a i y) j x
  | _, _ => a
  end.

(** partition.rs:221-269 (extract_intersection): compaction of both vectors in place. *)
Record xstate := { xleft : list nat; xright : list nat; xl : nat; xr : nat;
                   xleft_len : nat; xright_len : nat; xinter : list nat }.
Fixpoint x_loop (fuel : nat) (s : xstate) : xstate :=
  match fuel with
  | O => s
  | S fuel =>
      match nth_error (xleft s) (xl s), nth_error (xright s) (xr s) with
      | Some a, Some b =>
          match Nat.compare a b with
          | Lt => x_loop fuel {| xleft := set_nth (xleft s) (xleft_len s) a; xright := xright s;
                    xl := S (xl s); xr := xr s; xleft_len := S (xleft_len s);
                    xright_len := xright_len s; xinter := xinter s |}
          | Gt => x_loop fuel {| xleft := xleft s; xright := set_nth (xright s) (xright_len s) b;
                    xl := xl s; xr := S (xr s); xleft_len := xleft_len s;
                    xright_len := S (xright_len s); xinter := xinter s |}
          | Eq => x_loop fuel {| xleft := xleft s; xright := xright s; xl := S (xl s); xr := S (xr s);
                    xleft_len := xleft_len s; xright_len := xright_len s; xinter := xinter s ++ [a] |}
          end
      | _, _ => s
      end
  end.
(** partition.rs:251-258 (and 260-268) *)
Fixpoint copy_tail (fuel : nat) (a : list nat) (l len : nat) : list nat * nat :=
  match fuel with
  | O => (a, len)
  | S fuel => match nth_error a l with
              | Some x => copy_tail fuel (set_nth a len x) (S l) (S len)
              | None => (a, len)
              end
  end.
Definition finish (a : list nat) (l len : nat) : list nat :=
  if l =? len then a
  else let '(a', len') := copy_tail (List.length a) a l len in firstn len' a'.
(** [None] is the panic of [left[left.len() - 1]] / [right[0]] on an empty vector. *)
Definition extract_intersection (left right : list nat) : option (list nat * list nat * list nat) :=
  match left, right with
  | l0 :: _, r0 :: _ =>
      if (last left 0 <? r0) || (last right 0 <? l0) then Some (left, right, [])
      else
        let s := x_loop (List.length left + List.length right)
                   {| xleft := left; xright := right; xl := 0; xr := 0; xleft_len := 0;
                      xright_len := 0; xinter := [] |} in
        Some (finish (xleft s) (xl s) (xleft_len s), finish (xright s) (xr s) (xright_len s), xinter s)
  | _, _ => None
  end.

Definition part := (list nat * N)%type.
Definition is_empty {A} (l : list A) : bool := match l with [] => true | _ => false end.

(** partition.rs:192-208: the loop over the partitions present at its start; returns them updated,
    the partitions pushed at the end, and what is left of the new one. *)
Fixpoint split_inner (parts : list part) (new : list nat) (fields sup : N)
  : option (list part * list part * list nat) :=
  match parts with
  | [] => Some ([], [], new)
  | (ids, fs) :: rest =>
      if is_empty new then Some (parts, [], new)
      else match extract_intersection ids new with
           | None => None
           | Some (ids', new', common) =>
               match split_inner rest new' fields sup with
               | None => None
               | Some (rest', pushed, new'') =>
                   if is_empty ids' then Some ((common, N.lor fs fields) :: rest', pushed, new'')
                   else if is_empty common then Some ((ids', fs) :: rest', pushed, new'')
                   else Some ((ids', fs) :: rest', (common, N.lor (N.lor fields fs) sup) :: pushed, new'')
               end
           end
  end.
(** partition.rs:157-218 *)
Fixpoint split_into_partitions (output : list nat) (conds : list part) (sup : N) (parts : list part)
  : option (list part) :=
  match conds with
  | [] => Some parts
  | (types, fields) :: conds' =>
      match split_inner parts (inter types output) fields sup with
      | None => None
      | Some (parts', pushed, new) =>
          split_into_partitions output conds' sup
            (parts' ++ pushed ++ (if is_empty new then [] else [(new, N.lor fields sup)]))
      end
  end.

Inductive partition := One (id : nat) (fields : N) | Many (ids : list nat) (fields : N) | Remaining (fields : N).

(** [sort_unstable_by] on the single id (insertion sort; the order of equal keys does not matter). *)
Fixpoint insert (c : part) (l : list part) : list part :=
  match l with
  | [] => [c]
  | d :: l' => if hd 0 (fst c) <=? hd 0 (fst d) then c :: l else d :: insert c l'
  end.
Fixpoint sort_by_id (l : list part) : list part :=
  match l with [] => [] | c :: l' => insert c (sort_by_id l') end.
(** [chunk_by(|(ids, _)| ids[0])] followed by the fold of partition.rs:84-92: the chunk being built is
    [cur]. *)
Fixpoint chunk_ids (sup : N) (cur : option (nat * N)) (l : list part) : list partition :=
  match l with
  | [] => match cur with Some (id, f) => [One id f] | None => [] end
  | (ids, f) :: l' =>
      let id := hd 0 ids in
      match cur with
      | Some (id0, f0) => if id =? id0 then chunk_ids sup (Some (id0, N.lor f0 f)) l'
                          else One id0 f0 :: chunk_ids sup (Some (id, N.lor sup f)) l'
      | None => chunk_ids sup (Some (id, N.lor sup f)) l'
      end
  end.

(** partition.rs:104-114 *)
Definition to_partition (p : part) : list partition :=
  match fst p with [] => [] | [id] => [One id (snd p)] | ids => [Many ids (snd p)] end.
Definition raw_count (p : partition) : nat :=
  match p with One _ _ => 1 | Many ids _ => List.length ids | Remaining _ => 0 end.

(** partition.rs:42-128 *)
Definition partition_object_shapes (output : list nat) (conds : list part) : option (list partition) :=
  if List.length output =? 1 then Some []
  else
    let '(supersets, conds') := List.partition (fun c => is_superset (fst c) output) conds in
    if is_empty conds' then Some []
    else
      let sup := fold_left N.lor (map snd supersets) 0%N in
      let base :=
        if forallb (fun c => List.length (fst c) =? 1) conds'
        then Some (chunk_ids sup None (sort_by_id conds'))
        else match split_into_partitions output conds' sup [] with
             | Some raw => Some (flat_map to_partition raw)
             | None => None
             end in
      match base with
      | None => None
      | Some ps =>
          let count := list_sum (map raw_count ps) in
          Some (ps ++ (if negb (count =? List.length output) && negb (is_empty supersets)
                       then [Remaining sup] else []))
      end.

(** shapes/mod.rs:873-890: keep in place, by swapping, what also is in [types]. *)
Fixpoint keep_loop (fuel : nat) (a types : list nat) (l r n : nat) : list nat * nat :=
  match fuel with
  | O => (a, n)
  | S fuel =>
      match nth_error a l, nth_error types r with
      | Some x, Some y =>
          match Nat.compare x y with
          | Lt => keep_loop fuel a types (S l) r n
          | Gt => keep_loop fuel a types l (S r) n
          | Eq => keep_loop fuel (swap a l n) types (S l) (S r) (S n)
          end
      | _, _ => (a, n)
      end
  end.
Definition keep (a types : list nat) : list nat :=
  let '(a', n) := keep_loop (List.length a + List.length types) a types 0 0 0 in firstn n a'.
(** shapes/mod.rs:849-893 *)
Definition compute_possible_types (output : list nat) (conditions : list (list nat)) : list nat :=
  match conditions with
  | [] => output
  | first :: rest => fold_left keep rest (inter output first)
  end.

Section Fields.
(** The schema: possible types of a composite type. *)
Variable possible : nat -> list nat.
(** [sort_unstable] of shapes/mod.rs:811; only the fact that it permutes matters. *)
Variable sort : list (list nat * nat) -> list (list nat * nat).

Definition conds_eqb (a b : list nat) : bool := if list_eq_dec Nat.eq_dec a b then true else false.
(** shapes/mod.rs:813-824: chunks of equal type conditions with the bit set of their fields. *)
Fixpoint chunk_conds (cur : option (list nat * N)) (l : list (list nat * nat)) : list (list nat * N) :=
  match l with
  | [] => match cur with Some c => [c] | None => [] end
  | (cs, i) :: l' =>
      match cur with
      | Some (cs0, bits) =>
          if conds_eqb cs cs0 then chunk_conds (Some (cs0, N.setbit bits (N.of_nat i))) l'
          else (cs0, bits) :: chunk_conds (Some (cs, N.setbit 0 (N.of_nat i))) l'
      | None => chunk_conds (Some (cs, N.setbit 0 (N.of_nat i))) l'
      end
  end.
(** shapes/mod.rs:789-827; a field is its list of enclosing type conditions. *)
Definition compute_object_shape_partitions (output : list nat) (fields : list (list nat)) : option (list partition) :=
  let chunks := chunk_conds None (sort (combine fields (seq 0 (List.length fields)))) in
  partition_object_shapes output
    (map (fun c => (compute_possible_types output (map possible (fst c)), snd c)) chunks).

(** shapes/mod.rs:674-770 with deserialize/object/polymorphic.rs:90-176: without partitions all fields
    are expected on every object; otherwise those of the partition of the object's type, else those
    of the fallback, else none. *)
Fixpoint find_partition (ty : nat) (ps : list partition) : option N :=
  match ps with
  | [] => None
  | One id f :: ps' => if id =? ty then Some f else find_partition ty ps'
  | Many ids f :: ps' => if existsb (Nat.eqb ty) ids then Some f else find_partition ty ps'
  | Remaining _ :: ps' => find_partition ty ps'
  end.
Fixpoint fallback (ps : list partition) : option N :=
  match ps with [] => None | Remaining f :: _ => Some f | _ :: ps' => fallback ps' end.
Definition expected_fields (ty n : nat) (ps : list partition) : N :=
  match ps with
  | [] => N.ones (N.of_nat n)
  | _ => match find_partition ty ps with
         | Some f => f
         | None => match fallback ps with Some f => f | None => 0%N end
         end
  end.
End Fields.

(** composite_type.rs:105-119 *)
Fixpoint has_non_empty_intersection (xs : list nat) : list nat -> bool :=
  fix go (ys : list nat) : bool :=
  match xs, ys with
  | x :: xs', y :: ys' =>
      match Nat.compare x y with
      | Lt => has_non_empty_intersection xs' ys
      | Eq => true
      | Gt => go ys'
      end
  | _, _ => false
  end.
(** composite_type.rs:121-139 *)
Fixpoint subset_loop (xs : list nat) : list nat -> bool :=
  fix go (ys : list nat) : bool :=
  match xs, ys with
  | x :: xs', y :: ys' =>
      match Nat.compare x y with
      | Lt => false
      | Eq => subset_loop xs' ys
      | Gt => go ys'
      end
  | _, _ => true
  end.
Definition is_subset_of (xs ys : list nat) : bool :=
  if List.length ys <? List.length xs then false else subset_loop xs ys.
(** operation_fields.rs:212-221: a selection under a type condition is kept only if the condition
    shares a type with the output. *)
Definition can_be_present (output ty : list nat) : bool := has_non_empty_intersection output ty.
