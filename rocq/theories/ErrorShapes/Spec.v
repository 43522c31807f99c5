(** Specification: the objects of the response in the order in which they are completed, and the fields
    each of them has. *)
From Coq Require Import List Arith Bool.
From Verif.ErrorShapes Require Import Model.
Import ListNotations.

(** The groups of every object of a shape, inner objects first. *)
Fixpoint objects (s : shape) : list (list group) :=
  match s with
  | Leaf => []
  | Derived _ => []
  | Objects os => flat_map (fun gs => flat_map (fun g => objects (snd g)) gs ++ [gs]) os
  end.
(** The fields whose value an object holds under some response key: for each group, the one that is used. *)
Definition used (gs : list group) (f : nat) : Prop := exists rest s, In (Data f, rest, s) gs.
(** All the fields merged under some response key. *)
Definition merged (gs : list group) (f : nat) : Prop := exists g rest s, In (g, rest, s) gs /\ (g = Data f \/ In f rest).

(** Every data field of a shape, at any depth, satisfies [P]. *)
Inductive all_fields (P : nat -> Prop) : shape -> Prop :=
| AF_leaf : all_fields P Leaf
| AF_derived : forall gs, (forall g, In g gs -> P (fst g) /\ forall f, In f (snd g) -> P f) -> all_fields P (Derived gs)
| AF_objects : forall os,
    (forall gs g, In gs os -> In g gs -> all_fields P (snd g) /\ (forall f, fst (fst g) = Data f -> P f) /\ (forall f, In f (snd (fst g)) -> P f)) ->
    all_fields P (Objects os).
