(** Model of the ordering of the root fields of a mutation.
    Sources: crates/engine/query-solver/src/post_process/mutation_order.rs (13-94),
    crates/engine/src/prepare/cached/builder/mutation_order.rs (12-66); the resulting order is the
    [d_mutation_order] of Scheduler/Model.v.
    Simplifications: nodes of the graph are numbers, partitions and fields numbered apart; only the edges
    from root partitions to root fields are kept, as a list (their order does not matter: the fields of a
    partition are sorted by query position later, query_partition.rs:359-369).  The model starts after the
    sort by position (42): the list of fields may be any list. *)
From Coq Require Import List Arith Bool.
Import ListNotations.

(** A root field, with the partition the solver put it in and its resolver. *)
Record field := { f_id : nat; f_partition : nat; f_resolver : nat }.

(** [partitions] (45) in the order in which they are pushed, field edges, first unused node. *)
Record plan := { p_partitions : list (nat * nat); p_edges : list (nat * nat); p_next : nat }.

Definition pair_eqb (a b : nat * nat) : bool := (fst a =? fst b) && (snd a =? snd b).
(** [find_edge] and [remove_edge] *)
Fixpoint remove_edge (e : nat * nat) (l : list (nat * nat)) : list (nat * nat) :=
  match l with [] => [] | x :: l' => if pair_eqb x e then l' else x :: remove_edge e l' end.
Definition last_error (A : Type) (l : list A) : option A := match rev l with [] => None | x :: _ => Some x end.
Arguments last_error {A} l.

(** The last partition, if it has this resolver (55-58). *)
Definition last_with (resolver : nat) (l : list (nat * nat)) : option nat :=
  match last_error l with
  | Some (p, r) => if r =? resolver then Some p else None
  | None => None
  end.
Definition used (p : nat) (l : list (nat * nat)) : bool := existsb (fun x => fst x =? p) l.
(** 60-69: the field moves to the last partition. *)
Definition move (f : field) (p : nat) (edges : list (nat * nat)) : list (nat * nat) :=
  remove_edge (f_partition f, f_id f) edges ++ [(p, f_id f)].
(** 72-86 *)
Definition place (m : plan) (f : field) : plan :=
  if used (f_partition f) (p_partitions m) then
    {| p_partitions := p_partitions m ++ [(p_next m, f_resolver f)];
       p_edges := remove_edge (f_partition f, f_id f) (p_edges m) ++ [(p_next m, f_id f)];
       p_next := p_next m + 1 |}
  else
    {| p_partitions := p_partitions m ++ [(f_partition f, f_resolver f)];
       p_edges := p_edges m;
       p_next := p_next m |}.
(** One iteration (48-89). *)
Definition step (m : plan) (f : field) : plan :=
  match last_with (f_resolver f) (p_partitions m) with
  | Some p =>
      if f_partition f =? p then m
      else place {| p_partitions := p_partitions m; p_edges := move f p (p_edges m); p_next := p_next m |} f
  | None => place m f
  end.
Definition initial (fields : list field) (next : nat) : plan :=
  {| p_partitions := []; p_edges := map (fun f => (f_partition f, f_id f)) fields; p_next := next |}.
Definition ensure_order (fields : list field) (next : nat) : plan := fold_left step fields (initial fields next).

(** 91-95: [(a, b)] for an edge from [b] to [a], [b] is executed after [a]. *)
Fixpoint windows (l : list nat) : list (nat * nat) :=
  match l with a :: ((b :: _) as l') => (a, b) :: windows l' | _ => [] end.
Definition executed_after (m : plan) : list (nat * nat) := windows (map fst (p_partitions m)).

(** builder/mutation_order.rs:20-34: for every root partition, the one before, or the initial one. *)
Definition before (after : list (nat * nat)) (p : nat) : option nat :=
  match find (fun e => snd e =? p) after with Some e => Some (fst e) | None => None end.
Fixpoint collect (after : list (nat * nat)) (roots : list nat) (pairs : list (nat * nat)) (init : option nat) : list (nat * nat) * option nat :=
  match roots with
  | [] => (pairs, init)
  | p :: roots =>
      match before after p with
      | Some q => collect after roots (pairs ++ [(q, p)]) init
      | None => collect after roots pairs (Some p)
      end
  end.
(** 54 *)
Definition pair_leb (a b : nat * nat) : bool := (fst a <? fst b) || ((fst a =? fst b) && (snd a <=? snd b)).
Fixpoint insert_pair (p : nat * nat) (l : list (nat * nat)) : list (nat * nat) :=
  match l with [] => [p] | x :: l' => if pair_leb p x then p :: l else x :: insert_pair p l' end.
Definition sort_pairs (l : list (nat * nat)) : list (nat * nat) := fold_right insert_pair [] l.
(** 57-61; the binary search finds an entry with this key if there is one.  [None] without fuel. *)
Fixpoint follow (fuel : nat) (pairs : list (nat * nat)) (last : nat) : option (list nat) :=
  match find (fun e => fst e =? last) pairs with
  | None => Some []
  | Some e =>
      match fuel with
      | O => None
      | S fuel => match follow fuel pairs (snd e) with Some l => Some (snd e :: l) | None => None end
      end
  end.
(** [None]: internal error (36-39). *)
Definition partition_order (after : list (nat * nat)) (roots : list nat) : option (list nat) :=
  let '(pairs, init) := collect after roots [] None in
  match init with
  | None => None
  | Some p => match follow (length pairs) (sort_pairs pairs) p with Some l => Some (p :: l) | None => None end
  end.
