(** Model of the complexity (cost) control and of the height limit.
    Source: crates/engine/operation/src/validation/complexity.rs and after_binding.rs.
    Simplifications: a field carries the annotations of its definition directly; argument values are
    given as the JSON they deserialise to ([None]: not deserialisable); error payloads are dropped.
    [usize] arithmetic is modulo 2^64, as compiled in release mode (no overflow checks in the
    release profile, Cargo.toml). *)
From Coq Require Import ZArith NArith List String Bool.
From Verif.Coercion Require Import Json.
Import ListNotations.
Local Open Scope Z_scope.

Definition w64 (z : Z) : Z := z mod 2 ^ 64.
Definition wadd (a b : Z) : Z := w64 (a + b).
Definition wmul (a b : Z) : Z := w64 (a * b).
(** [Iterator::sum] on usize. *)
Definition wsum (l : list Z) : Z := fold_left wadd l 0.

(** Input types: definition.rs:82-88 gives the @cost on the type. *)
Inductive input_type := IScalarOrEnum (cost : option Z) | IObject (cost : option Z) (id : nat).
Record input_field := { if_name : string; if_cost : option Z; if_type : input_type }.
Definition input_schema := nat -> list input_field.

(** complexity.rs:259-271, for input types and for output types ([composite]: object, interface, union) *)
Definition cost_for_input_type (t : input_type) : Z :=
  match t with IScalarOrEnum (Some c) | IObject (Some c) _ => c | IScalarOrEnum None => 0 | IObject None _ => 1 end.
Definition cost_for_output_type (cost : option Z) (composite : bool) : Z :=
  match cost with Some c => c | None => if composite then 1 else 0 end.

(** complexity.rs:169-174 *)
Fixpoint cost_for_input_scalar (v : json) (item_cost : Z) : Z :=
  match v with
  | JArr l => wsum (map (fun x => cost_for_input_scalar x item_cost) l)
  | _ => item_cost
  end.

Definition find_field (name : string) (fs : list input_field) : option input_field :=
  find (fun f => String.eqb (if_name f) name) fs.
Definition or_else (o : option Z) (d : Z) : Z := match o with Some z => z | None => d end.

(** complexity.rs:139-167; [as usize] of a negative i32 sign-extends, i.e. reduces modulo 2^64. *)
Fixpoint cost_for_object_value (sch : input_schema) (v : json) (id : nat) (base : Z) : Z :=
  match v with
  | JArr l => wsum (map (fun x => cost_for_object_value sch x id base) l)
  | JObj fs =>
      fold_left (fun overall kv =>
        match find_field (fst kv) (sch id) with
        | None => overall
        | Some f =>
            let fc := w64 (or_else (if_cost f) (cost_for_input_type (if_type f))) in
            match if_type f with
            | IObject _ id' => wadd overall (cost_for_object_value sch (snd kv) id' fc)
            | IScalarOrEnum _ => wadd overall (cost_for_input_scalar (snd kv) fc)
            end
        end) fs base
  | _ => 0
  end.

Record argument := { a_id : nat; a_cost : option Z; a_type : input_type; a_value : option json }.
(** complexity.rs:123-137 *)
Definition cost_for_argument (sch : input_schema) (a : argument) : Z :=
  let c := w64 (or_else (a_cost a) (cost_for_input_type (a_type a))) in
  match a_value a with
  | None => c
  | Some v => match a_type a with
              | IObject _ id => cost_for_object_value sch v id c
              | IScalarOrEnum _ => cost_for_input_scalar v c
              end
  end.

(** @listSize, generated/directive/complexity_control.rs:83-88 *)
Record list_size := { assumed_size : option Z; slicing_arguments : list nat;
                      sized_fields : list N; require_one_slicing_argument : bool }.
Record field := { fd_name : N; fd_cost : option Z; ty_cost : option Z; ty_composite : bool;
                  is_list : bool; fd_list_size : option list_size; args : list argument }.
Inductive sel := STypename | SData (f : field) (sub : list sel).

(** complexity.rs:176-202 *)
Inductive handling := ThisFieldIsTheList (n : Z) | ChildFieldsAreTheList (n : Z) (fields : list N).
Definition this_field_count (h : handling) : Z :=
  match h with ThisFieldIsTheList n => n | ChildFieldsAreTheList _ _ => 1 end.
Definition child_field_count (h : handling) : option (Z * list N) :=
  match h with ThisFieldIsTheList _ => None | ChildFieldsAreTheList n fs => Some (n, fs) end.

(** [Option::<usize>::deserialize(value).ok().flatten()] *)
Definition as_slice (v : option json) : option Z :=
  match v with Some (JNum (PosInt n)) => Some n | _ => None end.
Fixpoint filter_map {A B} (f : A -> option B) (l : list A) : list B :=
  match l with [] => [] | x :: l' => match f x with Some y => y :: filter_map f l' | None => filter_map f l' end end.
Definition iter_max (l : list Z) : option Z :=
  match l with [] => None | x :: l' => Some (fold_left Z.max l' x) end.

(** complexity.rs:204-257; [None] is [ExpectedOneSlicingArgument]. *)
Definition calculate_child_count (default_list_size : Z) (f : field) (preset : option Z) : option handling :=
  match preset with
  | Some n => Some (ThisFieldIsTheList n)
  | None =>
      match fd_list_size f with
      | None => Some (ThisFieldIsTheList (if is_list f then default_list_size else 1))
      | Some d =>
          let multiplier := match assumed_size d with Some n => n | None => default_list_size mod 2 ^ 32 end in
          let finish multiplier :=
            match sized_fields d with
            | [] => ThisFieldIsTheList multiplier
            | fs => ChildFieldsAreTheList multiplier fs
            end in
          match slicing_arguments d with
          | [] => Some (finish multiplier)
          | sl =>
              let vals := filter_map (fun id =>
                            match find (fun a => Nat.eqb (a_id a) id) (args f) with
                            | Some a => as_slice (a_value a)
                            | None => None
                            end) sl in
              if require_one_slicing_argument d && negb (Nat.eqb (List.length vals) 1) then None
              else Some (finish (match iter_max vals with Some n => n | None => default_list_size end))
          end
      end
  end.

(** complexity.rs:77-85 *)
Definition preset_list_size (mult : option (Z * list N)) (name : N) : option Z :=
  match mult with
  | Some (n, fs) => if existsb (fun x => N.eqb name x) fs then Some n else None
  | None => None
  end.

Fixpoint collect (l : list (option Z)) : option (list Z) :=
  match l with
  | [] => Some []
  | None :: _ => None
  | Some x :: l' => match collect l' with Some r => Some (x :: r) | None => None end
  end.

Section Cost.
Variable sch : input_schema.
Variable default_list_size : Z.

(** complexity.rs:68-121: [field_complexity] (the [SData] arm) and [selection_set_complexity]. *)
Fixpoint sel_complexity (mult : option (Z * list N)) (s : sel) : option Z :=
  match s with
  | STypename => Some 1
  | SData f sub =>
      let type_cost := w64 (or_else (fd_cost f) (cost_for_output_type (ty_cost f) (ty_composite f))) in
      match calculate_child_count default_list_size f (preset_list_size mult (fd_name f)) with
      | None => None
      | Some h =>
          let argument_cost := wsum (map (cost_for_argument sch) (args f)) in
          match collect (map (sel_complexity (child_field_count h)) sub) with
          | None => None
          | Some l => Some (wmul (this_field_count h) (wadd (wadd type_cost argument_cost) (wsum l)))
          end
      end
  end.
Definition selection_set_complexity (mult : option (Z * list N)) (ss : list sel) : option Z :=
  match collect (map (sel_complexity mult) ss) with Some l => Some (wsum l) | None => None end.

(** complexity.rs:32-58 *)
Definition calculate_complexity (mutation : bool) (ss : list sel) : option Z :=
  match selection_set_complexity None ss with
  | Some c => Some (wadd (if mutation then 10 else 0) c)
  | None => None
  end.

Inductive outcome := Executed (cost : Z) | LimitReached | ExpectedOneSlicingArgument.
(** complexity.rs:15-30, enforce mode *)
Definition enforce (limit : Z) (mutation : bool) (ss : list sel) : outcome :=
  match calculate_complexity mutation ss with
  | None => ExpectedOneSlicingArgument
  | Some c => if limit <? c then LimitReached else Executed c
  end.
End Cost.

(** after_binding.rs:73-84.  A selection set: [None] is a typename field, [Some id] a data field with
    that field definition; the set of seen definitions is a list. *)
Inductive hsel := HSel (def : option N) (sub : list hsel).
Definition w16 (z : Z) : Z := z mod 2 ^ 16.
Fixpoint height_sel (seen : list N) (s : hsel) : list N * Z :=
  match s with
  | HSel None _ => (seen, 0)
  | HSel (Some id) sub =>
      let '(seen1, one) := if existsb (N.eqb id) seen then (seen, 0) else (id :: seen, 1) in
      let '(seen2, h) :=
        fold_left (fun acc x => let '(sn, h) := height_sel (fst acc) x in (sn, w16 (snd acc + h))) sub (seen1, 0) in
      (seen2, w16 (one + h))
  end.
Definition height (ss : list hsel) : Z :=
  snd (fold_left (fun acc x => let '(sn, h) := height_sel (fst acc) x in (sn, w16 (snd acc + h))) ss ([], 0)).
(** after_binding.rs:58-71 *)
Definition enforce_height (max_height : option Z) (ss : list hsel) : bool :=
  match max_height with Some m => negb (m <? height ss) | None => true end.
