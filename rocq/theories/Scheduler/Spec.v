(** Specification: dependencies between executables as the plan states them, and the order of events. *)
From Coq Require Import List Arith NArith Bool.
From Verif.Scheduler Require Import Model.
Import ListNotations.

(** [depends d y x]: [x] needs [y] to be finished. *)
Inductive depends (d : description) : exec -> exec -> Prop :=
| D_modifier : forall p m, In (p, m) (d_partition_modifiers d) -> depends d (P p) (M m)
| D_dependency : forall p x, In (x, p) (d_dependencies d) -> depends d (P p) x
| D_modified : forall p m q, In (p, m) (d_partition_modifiers d) -> In (P q, p) (d_dependencies d) -> depends d (M m) (P q)
| D_order : forall before a b after, d_mutation_order d = before ++ a :: b :: after -> depends d (P a) (P b).

Definition valid (d : description) (x : exec) : Prop :=
  match x with P p => p < d_plans d | M m => m < d_modifiers d end.
(** Ids are in range, and every modifier belongs to a partition. *)
Definition well_formed (d : description) : Prop :=
  (forall p m, In (p, m) (d_partition_modifiers d) -> p < d_plans d /\ m < d_modifiers d) /\
  (forall x p, In (x, p) (d_dependencies d) -> valid d x /\ p < d_plans d) /\
  (forall p, In p (d_mutation_order d) -> p < d_plans d) /\
  (forall m, m < d_modifiers d -> exists p, In (p, m) (d_partition_modifiers d)).

(** The turn of [x] has come. *)
Definition turn (x : exec) (e : event) : Prop :=
  match e, x with
  | Started p, P q => p = q
  | Skipped p, P q => p = q
  | Modified m, M n => m = n
  | _, _ => False
  end.
(** [x] is finished. *)
Definition finishes (x : exec) (e : event) : Prop :=
  match e, x with
  | Succeeded p, P q => p = q
  | Modified m, M n => m = n
  | _, _ => False
  end.
Definition happened (Q : event -> Prop) (log : list event) : Prop := exists e, In e log /\ Q e.

Definition at_most_once (log : list event) : Prop :=
  forall x a e b e' c, log = a ++ e :: b ++ e' :: c -> turn x e -> turn x e' -> False.
Definition after_dependencies (d : description) (log : list event) : Prop :=
  forall x y before e after, log = before ++ e :: after -> turn x e -> depends d y x -> happened (finishes y) before.
(** The answer to a request is only seen after the request. *)
Definition after_start (log : list event) : Prop :=
  forall p before e after, log = before ++ e :: after -> e = Succeeded p \/ e = Failed p -> In (Started p) before.
(** A request is answered once. *)
Definition answered_once (log : list event) : Prop :=
  forall p a e b e' c, log = a ++ e :: b ++ e' :: c -> (e = Succeeded p \/ e = Failed p) -> (e' = Succeeded p \/ e' = Failed p) -> False.
Definition acyclic (d : description) : Prop := exists rank : exec -> nat, forall y x, depends d y x -> rank y < rank x.
