(** Model of the construction of the executable plan of an operation: which plans and response modifiers
    there are, and on which query partitions each of them depends.
    Sources: crates/engine/src/prepare/operation_plan/builder.rs (57-256) and
    crates/engine/src/prepare/cached/query_plan/required_field_set.rs (76-81, 146-191).
    Its result is a [description] of the Scheduler model, whose [finalize] models builder.rs:71-125.
    Simplifications: ids are positions in lists and what is referred to by id is looked up in them; a
    partition keeps only the data fields at the top of its selection set that are still requested once
    fields were skipped or denied (query_modifications.rs, model Requires); the preparation of the resolver
    (builder.rs:209) is left out; the worklist of [register_dependencies] is a traversal, its order is lost
    in the sort that follows.  An output id that is missing is [None] (PlanError::Internal). *)
From Coq Require Import List Arith Bool.
From Verif.Scheduler Require Model.
Import ListNotations.

(** required_field_set.rs:76-81 *)
Inductive req := Item (field matching : nat) (sub : list req).
Definition r_field (r : req) : nat := match r with Item f _ _ => f end.
Definition r_matching (r : req) : nat := match r with Item _ m _ => m end.
Definition r_sub (r : req) : list req := match r with Item _ _ s => s end.

(** required_field_set.rs:147-190, on the subselection of [x].  Two indices over sorted lists: the inner
    recursion advances the right one. *)
Fixpoint union_sub (x : req) (rs : list req) {struct x} : list req :=
  match x with
  | Item _ _ ls =>
      (fix merge (ls : list req) : list req -> list req :=
         match ls with
         | [] => fun rs => rs
         | l :: ls' =>
             fix advance (rs : list req) : list req :=
               match rs with
               | [] => ls
               | r :: rs' =>
                   match r_matching l ?= r_matching r with
                   | Lt => l :: merge ls' rs
                   | Gt => r :: advance rs'
                   | Eq =>
                       Item (r_field l) (r_matching l)
                         (match r_sub l with [] => r_sub r | _ => union_sub l (r_sub r) end)
                       :: merge ls' rs'
                   end
               end
         end) ls rs
  end.
Definition union (ls rs : list req) : list req := union_sub (Item 0 0 ls) rs.

(** The parts of DataFieldRecord used here.  [f_parent]: the output of the parent field, [None] at the root.
    [f_in_response]: the field is part of the response of this operation, with these variables. *)
Record dfield := { f_partition : nat; f_requires : list req; f_super : list req; f_in_response : bool;
                   f_parent : option (option nat); f_entity : nat; f_output : option nat; f_type : nat }.
(** QueryPartitionRecord.  In a lookup partition the data fields are below the lookup field
    (query_partition.rs:196-243).  [p_parents]: [query_partition_ids] of the input. *)
Record partition := { p_requires : list req; p_lookup : bool; p_fields : list nat; p_parents : list nat }.
(** ResponseModifierRuleTarget and ResponseModifierDefinitionRecord *)
Inductive target := OnField | OnParentEntity | OnOutput.
Record rule := { ru_target : target; ru_fields : list nat }.
Record operation := { o_fields : list dfield; o_partitions : list partition; o_rules : list rule; o_mutation_order : list nat }.

Definition no_field : dfield :=
  {| f_partition := 0; f_requires := []; f_super := []; f_in_response := false; f_parent := None; f_entity := 0; f_output := None; f_type := 0 |}.
Definition field (o : operation) (f : nat) : dfield := nth f (o_fields o) no_field.
(** [root_response_object_set_id] *)
Definition root_set : nat := 0.

(** builder.rs:239-250 *)
Fixpoint fields_of (r : req) : list nat := match r with Item f _ sub => f :: flat_map fields_of sub end.
Fixpoint insert_nat (x : nat) (l : list nat) : list nat :=
  match l with [] => [x] | y :: l' => if x <=? y then x :: l else y :: insert_nat x l' end.
Definition sort_nats (l : list nat) : list nat := fold_right insert_nat [] l.
Fixpoint dedup (l : list nat) : list nat :=
  match l with
  | [] => []
  | x :: l' => match dedup l' with (y :: _) as d => if x =? y then d else x :: d | [] => [x] end
  end.
(** builder.rs:238-256 *)
Definition register (o : operation) (x : Scheduler.Model.exec) (s : list req) : list (Scheduler.Model.exec * nat) :=
  map (fun p => (x, p)) (dedup (sort_nats (map (fun f => f_partition (field o f)) (flat_map fields_of s)))).

(** builder.rs:218-236 *)
Definition plan_requires (o : operation) (p : partition) : list req :=
  if p_lookup p then p_requires p
  else fold_left (fun s f => union s (f_requires (field o f))) (p_fields p) (p_requires p).
(** builder.rs:194-206 *)
Definition plan_dependencies (o : operation) (i : nat) (p : partition) : list (Scheduler.Model.exec * nat) :=
  match plan_requires o p with
  | [] => match p_parents p with [] => [] | q :: _ => [(Scheduler.Model.P i, q)] end
  | s => register o (Scheduler.Model.P i) s
  end.
Fixpoint plans_from (o : operation) (i : nat) (ps : list partition) : list (Scheduler.Model.exec * nat) :=
  match ps with [] => [] | p :: ps => plan_dependencies o i p ++ plans_from o (S i) ps end.

(** A target of a modifier, with its partition; ordered as tuples. *)
Record impacted := { i_partition : nat; i_set : nat; i_type : nat; i_field : nat }.
Definition then_compare (a b : comparison) : comparison := match a with Eq => b | _ => a end.
Definition impacted_compare (a b : impacted) : comparison :=
  then_compare (i_partition a ?= i_partition b)
    (then_compare (i_set a ?= i_set b) (then_compare (i_type a ?= i_type b) (i_field a ?= i_field b))).
Definition impacted_eqb (a b : impacted) : bool := match impacted_compare a b with Eq => true | _ => false end.
Fixpoint insert_impacted (x : impacted) (l : list impacted) : list impacted :=
  match l with [] => [x] | y :: l' => match impacted_compare x y with Gt => y :: insert_impacted x l' | _ => x :: l end end.
Definition sort_impacted (l : list impacted) : list impacted := fold_right insert_impacted [] l.
Fixpoint dedup_impacted (l : list impacted) : list impacted :=
  match l with
  | [] => []
  | x :: l' => match dedup_impacted l' with (y :: _) as d => if impacted_eqb x y then d else x :: d | [] => [x] end
  end.
(** itertools [chunk_by] *)
Fixpoint chunks (l : list impacted) : list (list impacted) :=
  match l with
  | [] => []
  | x :: l' =>
      match chunks l' with
      | (y :: c) :: cs => if i_partition x =? i_partition y then (x :: y :: c) :: cs else [x] :: (y :: c) :: cs
      | cs => [x] :: cs
      end
  end.

(** builder.rs:129-156: [Some None] for a field that is not in the response *)
Definition impact (o : operation) (t : target) (f : nat) : option (option impacted) :=
  let d := field o f in
  if f_in_response d then
    match t with
    | OnField | OnParentEntity =>
        match f_parent d with
        | None => Some (Some {| i_partition := f_partition d; i_set := root_set; i_type := f_entity d; i_field := f |})
        | Some (Some s) => Some (Some {| i_partition := f_partition d; i_set := s; i_type := f_entity d; i_field := f |})
        | Some None => None
        end
    | OnOutput =>
        match f_output d with
        | Some s => Some (Some {| i_partition := f_partition d; i_set := s; i_type := f_type d; i_field := f |})
        | None => None
        end
    end
  else Some None.
Fixpoint impacts (o : operation) (t : target) (fs : list nat) : option (list impacted) :=
  match fs with
  | [] => Some []
  | f :: fs =>
      match impact o t f, impacts o t fs with
      | Some (Some x), Some l => Some (x :: l)
      | Some None, Some l => Some l
      | _, _ => None
      end
  end.

(** ResponseModifierRecord *)
Record modifier := { m_rule : nat; m_targets : list impacted }.
Definition modifiers_of (o : operation) (k : nat) (r : rule) : option (list modifier) :=
  match impacts o (ru_target r) (ru_fields r) with
  | None => None
  | Some l => Some (map (fun c => {| m_rule := k; m_targets := c |}) (chunks (dedup_impacted (sort_impacted l))))
  end.
Fixpoint modifiers_from (o : operation) (k : nat) (rs : list rule) : option (list modifier) :=
  match rs with
  | [] => Some []
  | r :: rs =>
      match modifiers_of o k r, modifiers_from o (S k) rs with
      | Some a, Some b => Some (a ++ b)
      | _, _ => None
      end
  end.
(** builder.rs:158-189: dependencies of the modifiers and the partition of each *)
Fixpoint modifier_dependencies (o : operation) (i : nat) (ms : list modifier) : list (Scheduler.Model.exec * nat) :=
  match ms with
  | [] => []
  | m :: ms =>
      flat_map (fun t => register o (Scheduler.Model.M i) (f_super (field o (i_field t)))) (m_targets m) ++
      modifier_dependencies o (S i) ms
  end.
Fixpoint partition_modifiers (i : nat) (ms : list modifier) : list (nat * nat) :=
  match ms with
  | [] => []
  | m :: ms =>
      match m_targets m with [] => partition_modifiers (S i) ms | t :: _ => (i_partition t, i) :: partition_modifiers (S i) ms end
  end.

(** builder.rs:59-69 *)
Definition modifiers (o : operation) : option (list modifier) := modifiers_from o 0 (o_rules o).
Definition build (o : operation) : option Scheduler.Model.description :=
  match modifiers o with
  | None => None
  | Some ms =>
      Some {| Scheduler.Model.d_plans := length (o_partitions o);
              Scheduler.Model.d_modifiers := length ms;
              Scheduler.Model.d_partition_modifiers := partition_modifiers 0 ms;
              Scheduler.Model.d_dependencies := plans_from o 0 (o_partitions o) ++ modifier_dependencies o 0 ms;
              Scheduler.Model.d_mutation_order := o_mutation_order o |}
  end.
