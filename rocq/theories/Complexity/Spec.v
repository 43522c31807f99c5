(** Specification: the cost of an operation, in unbounded integers, as the sum over all selected
    fields of (number of times the field is expected to occur) * (its own cost). *)
From Coq Require Import ZArith NArith List String Bool.
From Verif.Coercion Require Import Json.
From Verif.Complexity Require Import Model.
Import ListNotations.
Local Open Scope Z_scope.

Definition sum (l : list Z) : Z := fold_right Z.add 0 l.

(** Cost of argument values: each scalar item, and each object, counts its weight; null or a scalar
    where an object is expected costs nothing. *)
Fixpoint items (v : json) : Z := match v with JArr l => sum (map items l) | _ => 1 end.
Fixpoint object_cost (sch : input_schema) (v : json) (id : nat) (weight : Z) : Z :=
  match v with
  | JArr l => sum (map (fun x => object_cost sch x id weight) l)
  | JObj fs => weight + sum (map (fun kv =>
      match find_field (fst kv) (sch id) with
      | None => 0
      | Some f => match if_type f with
                  | IObject c id' => object_cost sch (snd kv) id' (or_else (if_cost f) (or_else c 1))
                  | IScalarOrEnum c => items (snd kv) * or_else (if_cost f) (or_else c 0)
                  end
      end) fs)
  | _ => 0
  end.
Definition arg_cost (sch : input_schema) (a : argument) : Z :=
  match a_type a with
  | IObject c id => let w := or_else (a_cost a) (or_else c 1) in
                    match a_value a with Some v => object_cost sch v id w | None => w end
  | IScalarOrEnum c => (match a_value a with Some v => items v | None => 1 end) * or_else (a_cost a) (or_else c 0)
  end.
Definition own_cost (sch : input_schema) (f : field) : Z :=
  or_else (fd_cost f) (or_else (ty_cost f) (if ty_composite f then 1 else 0)) + sum (map (arg_cost sch) (args f)).

(** List sizes. *)
Definition slice_value (f : field) (id : nat) : option Z :=
  match find (fun a => Nat.eqb (a_id a) id) (args f) with Some a => as_slice (a_value a) | None => None end.
Definition slices (f : field) (d : list_size) : list Z := filter_map (slice_value f) (slicing_arguments d).
(** The size announced by @listSize for a field: the largest slicing argument given, else the
    default size; without slicing arguments the assumed size. *)
Definition announced (dflt : Z) (f : field) (d : list_size) : Z :=
  match slicing_arguments d with
  | [] => or_else (assumed_size d) dflt
  | _ => match slices f d with [] => dflt | x :: l => fold_right Z.max x l end
  end.
(** How often a field occurs per occurrence of its parent, given the sizes its parent fixed. *)
Definition occurrences (dflt : Z) (inherited : option Z) (f : field) : Z :=
  match inherited with
  | Some n => n
  | None => match fd_list_size f with
            | None => if is_list f then dflt else 1
            | Some d => match sized_fields d with [] => announced dflt f d | _ => 1 end
            end
  end.
(** The size a field fixes for its child called [name]. *)
Definition fixes (dflt : Z) (inherited : option Z) (f : field) (name : N) : option Z :=
  match inherited, fd_list_size f with
  | None, Some d => if existsb (N.eqb name) (sized_fields d) then Some (announced dflt f d) else None
  | _, _ => None
  end.
Definition slicing_rule (inherited : option Z) (f : field) : bool :=
  match inherited, fd_list_size f with
  | None, Some d => match slicing_arguments d with
                    | [] => true
                    | _ => negb (require_one_slicing_argument d) || Nat.eqb (List.length (slices f d)) 1
                    end
  | _, _ => true
  end.

Section Exact.
Variable sch : input_schema.
Variable dflt : Z.
(** One entry per selected field of the whole tree: [k] is the product of the occurrences on the path. *)
Fixpoint entries (k : Z) (inh : N -> option Z) (s : sel) : list Z :=
  match s with
  | STypename => [k]
  | SData f sub =>
      let i := inh (fd_name f) in
      let k' := k * occurrences dflt i f in
      k' * own_cost sch f :: flat_map (entries k' (fixes dflt i f)) sub
  end.
Fixpoint well_sliced (inh : N -> option Z) (s : sel) : bool :=
  match s with
  | STypename => true
  | SData f sub => let i := inh (fd_name f) in
                   slicing_rule i f && forallb (well_sliced (fixes dflt i f)) sub
  end.
Definition exact_cost (mutation : bool) (ss : list sel) : Z :=
  (if mutation then 10 else 0) + sum (flat_map (entries 1 (fun _ => None)) ss).
Definition sliced_ok (ss : list sel) : bool := forallb (well_sliced (fun _ => None)) ss.
End Exact.

(** Height: every field definition selected anywhere. *)
Fixpoint definitions (s : hsel) : list N :=
  match s with
  | HSel None _ => []
  | HSel (Some id) sub => id :: flat_map definitions sub
  end.
Definition distinct (ss : list hsel) : nat := List.length (nodup N.eq_dec (flat_map definitions ss)).
