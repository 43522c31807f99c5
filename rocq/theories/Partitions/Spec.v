(** What the splitting of partitions is to achieve. *)
From Coq Require Import List Arith Bool Permutation.
From Verif Require Import Partitions.Model.
Import ListNotations.

Definition has (g : graph) (s d : nat) (w : weight) : Prop := In {| e_src := s; e_dst := d; e_weight := w |} (g_edges g).
Definition is_field (g : graph) (n : nat) : Prop := exists p t, node_at g n = NField p t.
Definition is_partition (g : graph) (n : nat) : Prop := exists e r, node_at g n = NPartition e r.
Definition resolver_of (g : graph) (n r : nat) : Prop := exists e, node_at g n = NPartition e r.

(** [n] needs [m], itself or through others. *)
Inductive needs (g : graph) : nat -> nat -> Prop :=
| needs_one : forall n m, has g n m WSubgraph -> needs g n m
| needs_more : forall n k m, has g n k WSubgraph -> needs g k m -> needs g n m.
Definition linked (g : graph) (n m : nat) : Prop := n = m \/ needs g n m \/ needs g m n.

(** Edges that make the tree of the query. *)
Definition tree_edge (e : edge) : bool :=
  match e_weight e with WPartition | WField => true | _ => false end.
(** A graph of the solver: a tree of fields and partitions, with requirements on fields in addition. *)
Record well_formed (depth : nat -> nat) (g : graph) : Prop := {
  wf_nodes : forall e, In e (g_edges g) -> e_src e < length (g_nodes g) /\ e_dst e < length (g_nodes g);
  wf_one_parent : NoDup (map e_dst (filter tree_edge (g_edges g)));
  wf_depth : forall e, In e (g_edges g) -> tree_edge e = true -> depth (e_dst e) = S (depth (e_src e));
  wf_partition : forall s d, has g s d WPartition -> is_partition g d /\ ~ is_partition g s;
  wf_field : forall s d, has g s d WField -> is_field g d;
  wf_required : forall s d, has g s d WSubgraph -> is_field g d;
  (* a partition requires no field of its own or of one beside it with the same resolver *)
  wf_own : forall r p q res d w, has g r p WPartition -> has g r q WPartition -> resolver_of g p res -> resolver_of g q res ->
    has g p d WField -> has g q d w -> w = WField
}.

(** Any function that sorts fields; how doesn't matter here. *)
Definition sorts (arrange : list fld -> list fld) : Prop := forall l, Permutation l (arrange l).

(** Fields right below a field or the root: in the same request or in the partitions below it. *)
Inductive below (g : graph) (a b : nat) : Prop :=
| below_field : has g a b WField -> is_field g a \/ node_at g a = NRoot -> below g a b
| below_partition : forall p, has g a p WPartition -> has g p b WField -> below g a b.
Inductive under (g : graph) (a : nat) : nat -> Prop :=
| under_self : under g a a
| under_below : forall b c, under g a b -> below g b c -> under g a c.

(** No two fields of a partition below [r] are linked. *)
Definition separated (g : graph) (r : nat) : Prop :=
  forall p a b, has g r p WPartition -> has g p a WField -> has g p b WField -> a <> b -> ~ needs g a b.

(** [p'] is [p0] or a copy of it: the same kind of partition with the same requirements. *)
Definition copy_of (g g' : graph) (r p0 p' : nat) : Prop :=
  has g r p0 WPartition /\ node_at g' p' = node_at g p0 /\
  (forall d, has g' p' d WSubgraph <-> has g p0 d WSubgraph) /\
  (forall d, has g' p' d WMutation <-> has g p0 d WMutation).
(** [p'] stands for [p] below [r]: it is a partition with the same resolver. *)
Definition stands_for (g g' : graph) (r p p' : nat) : Prop :=
  exists p0 res, resolver_of g p res /\ resolver_of g p0 res /\ copy_of g g' r p0 p'.

(** Two fields below one parent, to be requested from the same resolver, one of which needs the other. *)
Definition to_split (g : graph) (r : nat) : Prop :=
  exists p q res a b, has g r p WPartition /\ has g r q WPartition /\ resolver_of g p res /\ resolver_of g q res /\
    has g p a WField /\ has g q b WField /\ a <> b /\ needs g a b.

(** What splitting does to a graph. *)
Record kept (g g' : graph) : Prop := {
  (* nodes stay *)
  k_nodes : length (g_nodes g) <= length (g_nodes g') /\ forall n, n < length (g_nodes g) -> node_at g' n = node_at g n;
  (* new nodes are partitions *)
  k_new : forall n, length (g_nodes g) <= n -> n < length (g_nodes g') -> is_partition g' n;
  (* and there are some only if fields have to be split *)
  k_due : length (g_nodes g) < length (g_nodes g') -> exists r, to_split g r;
  (* edges between nodes that were there stay as they are, except from partitions to fields *)
  k_edges : forall s d w, s < length (g_nodes g) -> d < length (g_nodes g) -> ~ (is_partition g s /\ w = WField) ->
    (has g' s d w <-> has g s d w);
  (* a field stays below the same parent, in a partition of the same resolver that has the same requirements *)
  k_fields : forall r p f, has g r p WPartition -> has g p f WField ->
    exists p', has g' r p' WPartition /\ has g' p' f WField /\ stands_for g g' r p p';
  (* in a single partition *)
  k_once : forall p q f, has g' p f WField -> has g' q f WField -> p = q;
  (* no field is added *)
  k_no_more : forall r p' f, has g' r p' WPartition -> has g' p' f WField ->
    exists p res, has g r p WPartition /\ has g p f WField /\ resolver_of g' p' res /\ resolver_of g p res;
  (* all partitions are copies *)
  k_partitions : forall r p', has g' r p' WPartition -> exists p0, copy_of g g' r p0 p';
  (* fields need what they needed *)
  k_needs : forall n m, n < length (g_nodes g) -> (needs g' n m <-> needs g n m)
}.

(** A ring of partitions, each of which waits for the next one: at each it is entered by a field and left
    by a field that needs the field by which the next one is entered. *)
Inductive chain (g : graph) : nat -> list (nat * nat * nat) -> nat -> Prop :=
| chain_one : forall p enter leave last, has g p enter WField -> has g p leave WField -> needs g leave last ->
    chain g enter [(p, enter, leave)] last
| chain_more : forall p enter leave next l last, has g p enter WField -> has g p leave WField -> needs g leave next ->
    chain g next l last -> chain g enter ((p, enter, leave) :: l) last.
Definition ring (g : graph) (l : list (nat * nat * nat)) : Prop := exists first, chain g first l first.

(** A partition waits for another one: it, or a field of it, requires a field of the other. *)
Definition waits (g : graph) (p q : nat) : Prop :=
  exists n m, (n = p \/ has g p n WField) /\ has g n m WSubgraph /\ has g q m WField /\ p <> q.
Inductive waits_for_itself (g : graph) (p : nat) : nat -> Prop :=
| waits_one : forall q, waits g p q -> waits_for_itself g p q
| waits_more : forall q s, waits_for_itself g p q -> waits g q s -> waits_for_itself g p s.
Definition stuck (g : graph) : Prop := exists p, waits_for_itself g p p.
