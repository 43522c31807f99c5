(** Specification of shapes: plain set membership. *)
From Coq Require Import List Arith NArith Sorting.Sorted.
Import ListNotations.

(** Sets of types are strictly increasing lists. *)
Definition type_set (l : list nat) : Prop := StronglySorted lt l.
(** A field (given by its enclosing type conditions) applies to objects of type [ty]. *)
Definition applies (possible : nat -> list nat) (ty : nat) (conditions : list nat) : Prop :=
  forall c, In c conditions -> In ty (possible c).
(** Every single condition shares some type with the output. *)
Definition each_condition_meets (possible : nat -> list nat) (output : list nat) (fields : list (list nat)) : Prop :=
  forall conds c, In conds fields -> In c conds -> exists ty, In ty output /\ In ty (possible c).
