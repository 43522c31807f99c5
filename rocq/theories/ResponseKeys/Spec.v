(** What response keys are, without the code of the model. *)
From Coq Require Import String NArith List.
From Verif.ResponseKeys Require Import Model.
Import ListNotations.

Section Spec.
Variable sch : schema.
Variable keys : list string.
Variable fields : list qfield.
Definition the_field (f : nat) : qfield := nth f fields {| q_key := None; q_def := None; q_args := 0 |}.

(** The operation: no text twice, keys that exist; the selection sets: fields that exist, none twice. *)
Definition well_formed (l : list selection) : Prop :=
  NoDup keys /\
  (forall q k, In q fields -> q_key q = Some k -> k < List.length keys) /\
  NoDup (map snd (flat_map v_fields l)) /\
  (forall v sf, In v l -> In sf (v_fields v) -> snd sf < List.length fields).

(** What decides on the key in the subgraph of a field the client asks for. *)
Inductive class := Renamed (c : ckey) | Kept (key : nat).
(** Its type is another one in the subgraph, and there may be fields of several objects. *)
Definition other_type (parent subgraph f def : nat) : Prop :=
  q_def (the_field f) = Some def /\ is_object sch parent = false /\ In subgraph (d_distinct (definitions sch def)).
Inductive classified (parent subgraph f : nat) : class -> Prop :=
| By_type key def : q_key (the_field f) = Some key -> other_type parent subgraph f def ->
    classified parent subgraph f (Renamed (CDistinct key def))
| By_name key def : q_key (the_field f) = Some key -> q_def (the_field f) = Some def ->
    ~ other_type parent subgraph f def -> nth_error keys key = Some "__typename"%string ->
    classified parent subgraph f (Renamed (CTypename (d_type (definitions sch def))))
| As_is key : q_key (the_field f) = Some key ->
    (forall def, q_def (the_field f) = Some def -> ~ other_type parent subgraph f def /\ nth_error keys key <> Some "__typename"%string) ->
    classified parent subgraph f (Kept key).

(** A field that was added: there is no key for it. *)
Definition extra (f def : nat) : Prop := q_key (the_field f) = None /\ q_def (the_field f) = Some def.
(** The name of a field. *)
Definition has_name (f : nat) (name : N) : Prop := exists def, q_def (the_field f) = Some def /\ d_name (definitions sch def) = name.
Definition of_interface (parent : nat) (name : N) : Prop := exists names, interface sch parent = Some names /\ In name names.
End Spec.
