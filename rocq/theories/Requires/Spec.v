(** Specification: what it means for a field to be needed, independently of how the set is computed. *)
From Coq Require Import List Arith Bool.
From Verif.Requires Require Import Model.
Import ListNotations.

(** [f] occurs in a set of requirements, at any depth. *)
Inductive occurs (f : nat) : list req -> Prop :=
| Here : forall sub s, In (Item f sub) s -> occurs f s
| Below : forall g sub s, In (Item g sub) s -> occurs f sub -> occurs f s.

(** [needed o included f]: a field of the response, a partition, or a field that is itself needed, cannot
    be resolved without [f]. *)
Inductive needed (o : operation) (included : nat -> bool) : nat -> Prop :=
| By_partition : forall s f, In s (op_partitions o) -> occurs f s -> needed o included f
| By_response : forall g f, g < length (op_fields o) -> included g = true ->
    occurs f (df_requires (field o g)) \/ occurs f (df_super (field o g)) \/ df_derive (field o g) = Some f ->
    needed o included f
| By_needed : forall g f, needed o included g ->
    occurs f (df_requires (field o g)) \/ df_derive (field o g) = Some f ->
    needed o included f.

(** Ids are in range. *)
Definition well_formed (o : operation) : Prop :=
  (forall s f, In s (op_partitions o) -> occurs f s -> f < length (op_fields o)) /\
  (forall g f, occurs f (df_requires (field o g)) \/ occurs f (df_super (field o g)) \/ df_derive (field o g) = Some f ->
     f < length (op_fields o)).
(** A field from which a value is derived is fetched, not derived in turn. *)
Definition derived_from_fetched (o : operation) : Prop :=
  forall g d, df_derive (field o g) = Some d -> df_derive (field o d) = None.
(** No field is, through requirements, required by itself: some ranking of the fields decreases. *)
Definition acyclic (o : operation) : Prop :=
  exists rank : nat -> nat, forall g f, occurs f (df_requires (field o g)) -> rank f < rank g.
