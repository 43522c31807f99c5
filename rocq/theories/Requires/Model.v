(** Model of the computation of the fields requested from subgraphs once fields were skipped or denied.
    Source: crates/engine/src/prepare/operation_plan/query_modifications.rs, [finalize] (267-343).
    Simplifications: bit sets are predicates over field numbers below [length (op_fields o)] (the Rust
    code panics on a larger number, [well_formed] in the specification excludes it); ids of fields and
    references to requirement records are their contents; a [Derive] that names no field is [None].
    The two loops of the Rust code have no bound: here they have fuel, and running out of it is [None]. *)
From Coq Require Import List Arith Bool.
Import ListNotations.

(** prepare/cached/model/generated/required_field_set: an item is a field with a subselection. *)
Inductive req := Item (field : nat) (sub : list req).
(** The parts of DataFieldRecord used here; [df_derive] is the id of [Derive::From] or the batch field id
    of [Derive::Root]. *)
Record dfield := { df_requires : list req; df_super : list req; df_derive : option nat }.
Record operation := { op_fields : list dfield; op_partitions : list (list req) }.

Definition field (o : operation) (f : nat) : dfield :=
  nth f (op_fields o) {| df_requires := []; df_super := []; df_derive := None |}.

Definition bits := nat -> bool.
Definition set (b : bits) (i : nat) (v : bool) : bits := fun j => if j =? i then v else b j.
Definition ones (o : operation) (b : bits) : list nat := filter b (seq 0 (length (op_fields o))).

(** Stacks: the head is the element pushed last. *)
Definition push_set (s : list req) (rs : list (list req)) : list (list req) :=
  match s with [] => rs | _ => s :: rs end.
Definition push_derive (d : option nat) (ds : list nat) : list nat :=
  match d with None => ds | Some d => d :: ds end.

(** 274-280: denied fields are not requested ... *)
Definition start_bits (included : bits) (denied : list nat) : bits :=
  fold_left (fun b f => set b f false) denied included.
(** 287-311: ... unless some field of the response or a partition needs them. *)
Definition init_field (o : operation) (st : list (list req) * list nat) (f : nat) : list (list req) * list nat :=
  (push_set (df_super (field o f)) (push_set (df_requires (field o f)) (fst st)), push_derive (df_derive (field o f)) (snd st)).
Definition initial (o : operation) (included : bits) : list (list req) * list nat :=
  let st := fold_left (init_field o) (ones o included) ([], []) in
  (fold_left (fun rs s => s :: rs) (op_partitions o) (fst st), snd st).

(** 314-324 *)
Definition drain1 (o : operation) (included : bits) (st : bits * list (list req)) (d : nat) : bits * list (list req) :=
  let b := fst st in
  if b d then st
  else (set b d true, if negb (included d) then push_set (df_requires (field o d)) (snd st) else snd st).
Definition drain (o : operation) (included : bits) (b : bits) (rs : list (list req)) (ds : list nat) : bits * list (list req) :=
  fold_left (drain1 o included) (rev ds) (b, rs).

(** 326-341, the body of the loop over the items of a popped record. *)
Definition item (o : operation) (st : bits * list (list req) * list nat) (it : req) : bits * list (list req) * list nat :=
  let '(b, rs, ds) := st in
  match it with
  | Item f sub => (set b f true, push_set (df_requires (field o f)) (sub :: rs), push_derive (df_derive (field o f)) ds)
  end.
Fixpoint pop_loop (fuel : nat) (o : operation) (b : bits) (rs : list (list req)) (ds : list nat) : option (bits * list nat) :=
  match rs with
  | [] => Some (b, ds)
  | s :: rest =>
      match fuel with
      | O => None
      | S fuel => let '(b', rs', ds') := fold_left (item o) s (b, rest, ds) in pop_loop fuel o b' rs' ds'
      end
  end.

(** 313-343 *)
Fixpoint loop (fuel : nat) (o : operation) (included : bits) (b : bits) (rs : list (list req)) (ds : list nat) : option bits :=
  match rs, ds with
  | [], [] => Some b
  | _, _ =>
      match fuel with
      | O => None
      | S fuel =>
          let st := drain o included b rs ds in
          match pop_loop fuel o (fst st) (snd st) [] with
          | None => None
          | Some (b', ds') => loop fuel o included b' [] ds'
          end
      end
  end.

(** [included]: fields of the response ([included_response_data_fields]); [denied]: fields with an error. *)
Definition requested (fuel : nat) (o : operation) (included : bits) (denied : list nat) : option bits :=
  let st := initial o included in loop fuel o included (start_bits included denied) (fst st) (snd st).
