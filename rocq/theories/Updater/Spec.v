(** What requirements ask of a plan, in terms of the nodes and edges it has. *)
From Coq Require Import NArith List.
From Verif.Steiner Require Import Model.
From Verif.Updater Require Import Model.
Import ListNotations.

(** A node of the graph that is required, once a node or an edge of the plan depends on it. *)
Definition needs (r : requirements) (nodes edges : list nat) (x : nat) : Prop :=
  (exists f, In f (by_node r) /\ In (r_of f) nodes /\ In x (r_nodes f)) \/
  (exists c e w, In c (with_cost r) /\ In (e, w) (c_dependent c) /\ In e edges /\ In x (c_nodes c)).
(** The same for nodes of the space of solutions. *)
Definition needs_space (r : requirements) (nodes edges : list nat) (x : nat) : Prop :=
  (exists f, In f (by_node r) /\ In (r_of f) nodes /\ In x (r_space f)) \/
  (exists c e w, In c (with_cost r) /\ In (e, w) (c_dependent c) /\ In e edges /\ In x (c_space c)).
(** How many nodes may become terminals. *)
Definition size (terminals : list nat) (r : requirements) : N :=
  N.of_nat (List.length terminals + List.length (flat_map r_nodes (by_node r)) + List.length (flat_map c_nodes (with_cost r))).
