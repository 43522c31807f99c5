(** Model of the splitting of query partitions.
    Sources: crates/engine/query-solver/src/post_process/partition_cycles.rs (12-145),
    post_process/root_typename.rs (10-54), post_process/mutation_order.rs (45-89: the root fields it returns),
    post_process/mod.rs (18-33); graph of query/mod.rs.
    Simplifications: a node of the graph is its index (nat), a resolver, an entity and a query position are
    numbers.  Of a field only its position and whether it is a [__typename] field (no definition) are kept.
    petgraph is taken at its word: [edges] and [neighbors] list the newest edge first, [find_edge] gives
    the newest edge between two nodes, [has_path_connecting] holds for nodes connected by a path (maybe
    empty).  [sort_unstable_by] (70) is an argument, any function that sorts by position. *)
From Coq Require Import List Arith Bool.
From Verif Require Import Mutation.Model.
Import ListNotations.

(** query/mod.rs: [Node] *)
Inductive node :=
| NRoot
| NPartition (entity resolver : nat)
| NField (position : option nat) (typename : bool).
(** query/mod.rs: [Edge] *)
Inductive weight := WPartition | WField | WSubgraph | WSupergraph | WDerive | WMutation.
Definition weight_eqb (a b : weight) : bool :=
  match a, b with
  | WPartition, WPartition | WField, WField | WSubgraph, WSubgraph
  | WSupergraph, WSupergraph | WDerive, WDerive | WMutation, WMutation => true
  | _, _ => false
  end.
Record edge := { e_src : nat; e_dst : nat; e_weight : weight }.
(** Edges with the newest first. *)
Record graph := { g_nodes : list node; g_edges : list edge }.

Definition node_at (g : graph) (i : nat) : node := nth i (g_nodes g) NRoot.
Definition add_node (n : node) (g : graph) : graph := {| g_nodes := g_nodes g ++ [n]; g_edges := g_edges g |}.
Definition add_edge (s d : nat) (w : weight) (g : graph) : graph :=
  {| g_nodes := g_nodes g; g_edges := {| e_src := s; e_dst := d; e_weight := w |} :: g_edges g |}.
(** [find_edge] and [remove_edge] (73-80) *)
Fixpoint drop_edge (s d : nat) (l : list edge) : list edge :=
  match l with
  | [] => []
  | e :: l => if (e_src e =? s) && (e_dst e =? d) then l else e :: drop_edge s d l
  end.
Definition remove (s d : nat) (g : graph) : graph := {| g_nodes := g_nodes g; g_edges := drop_edge s d (g_edges g) |}.
Definition edges (g : graph) (n : nat) : list edge := filter (fun e => e_src e =? n) (g_edges g).

(** [has_path_connecting] over the edges [RequiredBySubgraph] (102-115) *)
Definition required (g : graph) : list (nat * nat) :=
  map (fun e => (e_src e, e_dst e)) (filter (fun e => weight_eqb (e_weight e) WSubgraph) (g_edges g)).
Fixpoint reached (fuel : nat) (r : list (nat * nat)) (from : nat) : list nat :=
  match fuel with
  | O => [from]
  | S fuel =>
      let l := reached fuel r from in
      l ++ map snd (filter (fun e => existsb (Nat.eqb (fst e)) l) r)
  end.
Definition has_path (g : graph) (from to : nat) : bool :=
  existsb (Nat.eqb to) (reached (length (required g)) (required g) from).

(** [Field] (16-21) *)
Record fld := { fl_position : option nat; fl_partition : nat; fl_resolver : nat; fl_node : nat }.

(** 44-58: the fields of a partition. *)
Definition partition_fields (g : graph) (p res : nat) : list fld :=
  flat_map (fun e =>
    match e_weight e with
    | WField =>
        match node_at g (e_dst e) with
        | NField pos _ => [{| fl_position := pos; fl_partition := p; fl_resolver := res; fl_node := e_dst e |}]
        | _ => []
        end
    | _ => []
    end) (edges g p).
(** 31-36: what is below a node, other than for requirements. *)
Definition children (g : graph) (r : nat) : list nat :=
  flat_map (fun e => match e_weight e with WPartition | WField => [e_dst e] | _ => [] end) (edges g r).
(** [nested_partitions] (38-41) *)
Definition nested_partitions (g : graph) (r : nat) : list (nat * nat) :=
  flat_map (fun n => match node_at g n with NPartition _ res => [(n, res)] | _ => [] end) (children g r).
(** [nested_patitions_fields] (42-59) *)
Definition nested_fields (g : graph) (r : nat) : list fld :=
  flat_map (fun p => partition_fields g (fst p) (snd p)) (nested_partitions g r).
(** What is pushed on the stack (57, 62), the first pushed comes first. *)
Definition pushed (g : graph) (r : nat) : list nat :=
  flat_map (fun n =>
    match node_at g n with
    | NPartition _ res => map fl_node (partition_fields g n res)
    | NField _ _ => [n]
    | NRoot => []
    end) (children g r).

(** 92-115: is a field of the partition connected with this one? *)
Definition connected (g : graph) (p f : nat) : bool :=
  existsb (fun e =>
    match e_weight e with
    | WField => has_path g (e_dst e) f || has_path g f (e_dst e)
    | _ => false
    end) (edges g p).
(** 88-117: the first partition with the same resolver that has no connected field. *)
Definition choose (g : graph) (parts : list (nat * nat)) (x : fld) : option nat :=
  match find (fun p => (snd p =? fl_resolver x) && negb (connected g (fst p) (fl_node x))) parts with
  | Some p => Some (fst p)
  | None => None
  end.
(** 126-131: the walk reads the edges of the original partition while adding edges to the new one. *)
Definition copied (g : graph) (p : nat) : list edge :=
  filter (fun e => weight_eqb (e_weight e) WSubgraph || weight_eqb (e_weight e) WMutation) (edges g p).
(** 119-135 *)
Definition fresh_partition (g : graph) (r : nat) (x : fld) : graph :=
  let new := length (g_nodes g) in
  let g := add_node (node_at g (fl_partition x)) g in
  let g := add_edge r new WPartition g in
  fold_left (fun g e => add_edge new (e_dst e) (e_weight e) g) (copied g (fl_partition x)) g.
(** 82-140, one field. *)
Definition place (r : nat) (st : graph * list (nat * nat)) (x : fld) : graph * list (nat * nat) :=
  let '(g, parts) := st in
  match choose g parts x with
  | Some p => (add_edge p (fl_node x) WField g, parts)
  | None =>
      let new := length (g_nodes g) in
      (add_edge new (fl_node x) WField (fresh_partition g r x), parts ++ [(new, fl_resolver x)])
  end.
(** 72-80 *)
Definition detach (g : graph) (l : list fld) : graph :=
  fold_left (fun g x => remove (fl_partition x) (fl_node x) g) l g.

Section Sorting.
(** [sort_unstable_by] (70) *)
Variable arrange : list fld -> list fld.

(** The body of the loop (27-143); without fields the loop continues with an unchanged graph (66-68). *)
Definition split (g : graph) (r : nat) : graph :=
  match nested_fields g r with
  | [] => g
  | l => fst (fold_left (place r) (arrange l) (detach g (arrange l), nested_partitions g r))
  end.
(** [split_query_partition_dependency_cycles] (12-145); the top of the stack comes first.  [None] without
    fuel. *)
Fixpoint run (fuel : nat) (stack : list nat) (g : graph) : option graph :=
  match fuel, stack with
  | _, [] => Some g
  | O, _ :: _ => None
  | S fuel, r :: stack => run fuel (rev (pushed g r) ++ stack) (split g r)
  end.
End Sorting.

(** mutation_order.rs (45-89): the root fields that are returned, for the model of Mutation/Model.v: a field
    that stays in the last partition isn't (60-61). *)
Fixpoint returned (m : plan) (l : list field) : list nat :=
  match l with
  | [] => []
  | f :: l =>
      match last_with (f_resolver f) (p_partitions m) with
      | Some p => if f_partition f =? p then returned (step m f) l else f_id f :: returned (step m f) l
      | None => f_id f :: returned (step m f) l
      end
  end.
(** [root_fields] of a mutation whose root fields are [l]. *)
Definition root_fields (l : list field) (next : nat) : list nat := returned (initial l next) l.

(** root_typename.rs (10-54) *)
Definition neighbors (g : graph) (n : nat) : list nat := map e_dst (edges g n).
(** 20-28; positions are [u16], [None] stands for [QueryPosition::MAX]. *)
Definition position_of (g : graph) (n : nat) : option nat :=
  match node_at g n with NField p _ => p | _ => None end.
Definition earlier (a b : option nat) : bool :=
  match a, b with
  | Some a, Some b => a <? b
  | Some _, None => true
  | None, _ => false
  end.
Definition first_position (g : graph) (p : nat) : option nat :=
  fold_left (fun m n => if earlier (position_of g n) m then position_of g n else m) (neighbors g p) None.
(** [min_by_key] (19-28): the first of the minima. *)
Fixpoint min_partition (g : graph) (best : nat) (l : list nat) : nat :=
  match l with
  | [] => best
  | p :: l => min_partition g (if earlier (first_position g p) (first_position g best) then p else best) l
  end.
Definition partitions_at (g : graph) (r : nat) : list nat :=
  filter (fun n => match node_at g n with NPartition _ _ => true | _ => false end) (neighbors g r).
(** 14-36; [n] is the partition for introspection. *)
Definition first_partition (g : graph) (r : nat) (n : node) : graph * nat :=
  match partitions_at g r with
  | [] => (add_edge r (length (g_nodes g)) WPartition (add_node n g), length (g_nodes g))
  | p :: l => (g, min_partition g p l)
  end.
(** 37-46 *)
Definition typename_fields (g : graph) (r : nat) : list nat :=
  flat_map (fun e =>
    match e_weight e with
    | WField => match node_at g (e_dst e) with NField _ true => [e_dst e] | _ => [] end
    | _ => []
    end) (edges g r).
Definition assign_typename (g : graph) (r : nat) (n : node) : graph :=
  let '(g, p) := first_partition g r n in
  fold_left (fun g ix => add_edge p ix WField (remove r ix g)) (typename_fields g r) g.
