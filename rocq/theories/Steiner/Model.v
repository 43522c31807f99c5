(** Model of the planner's search for a cheapest tree, the directed Steiner tree approximation of
    crates/engine/query-solver/src/solve/steiner_tree/{mod.rs, greedy_flac.rs}.

    Simplifications.  Nodes and edges are natural numbers (petgraph's indices).  A [FixedBitSet] of
    nodes or edges is a list of members; those of terminals are lists of bits, since their lengths
    matter.  Times are rational numbers instead of [f64]; which of the edges with the least time is
    popped is left to an oracle, so that statements which don't mention times hold for any rounding.
    The heap is a list.  [debug_assert!] and tracing are left out. *)
From Coq Require Import QArith NArith List Bool Arith.
Import ListNotations.
Local Open Scope nat_scope.
Local Open Scope list_scope.

(** ** Graphs *)
(** [Graph<N, u16>]: an edge's index is its position. *)
Record edge := { e_src : nat; e_dst : nat; e_weight : N }.
Definition graph := list edge.
Definition no_edge : edge := {| e_src := 0; e_dst := 0; e_weight := 0%N |}.
Definition src (g : graph) (e : nat) : nat := e_src (nth e g no_edge).
Definition dst (g : graph) (e : nat) : nat := e_dst (nth e g no_edge).
Definition weight (g : graph) (e : nat) : N := e_weight (nth e g no_edge).
Definition ids (g : graph) : list nat := rev (seq 0 (List.length g)).
(** [edges_directed]: petgraph's lists of a node's edges start with the last one added. *)
Definition incoming (g : graph) (v : nat) : list nat := filter (fun e => dst g e =? v) (ids g).
Definition outgoing (g : graph) (v : nat) : list nat := filter (fun e => src g e =? v) (ids g).

(** u16 *)
Definition weight_max : N := 65535%N.
Definition wrap (n : N) : N := N.modulo n 65536.

(** ** Bit sets (the crate fixedbitset, 0.5) *)
Definition mem (x : nat) (s : list nat) : bool := existsb (Nat.eqb x) s.
Definition insert (x : nat) (s : list nat) : list nat := if mem x s then s else x :: s.
Definition bits := list bool.
Definition bget (b : bits) (i : nat) : bool := nth i b false.
Definition bgrow (b : bits) (n : nat) : bits := b ++ repeat false (n - List.length b).
Fixpoint bset (b : bits) (i : nat) : bits :=
  match b, i with
  | [], _ => []
  | _ :: b', 0 => true :: b'
  | x :: b', S i' => x :: bset b' i'
  end.
(** Keeps the length. *)
Definition bclear (b : bits) : bits := map (fun _ => false) b.
(** Takes the greater length. *)
Fixpoint bunion (a b : bits) : bits :=
  match a, b with
  | [], _ => b
  | _, [] => a
  | x :: a', y :: b' => (x || y) :: bunion a' b'
  end.
Fixpoint bdisjoint (a b : bits) : bool :=
  match a, b with
  | x :: a', y :: b' => negb (x && y) && bdisjoint a' b'
  | _, _ => true
  end.
Definition bfull (b : bits) : bool := forallb (fun x => x) b.
Definition bzeroes (b : bits) : list nat := filter (fun i => negb (bget b i)) (seq 0 (List.length b)).

(** ** Steiner trees (mod.rs:31-105) *)
Record tree := {
  t_nodes : list nat;
  t_edges : list nat;
  t_total : N;
  t_terminals : list nat;
  t_is_terminal : list nat }.
(** mod.rs:56-78 *)
Definition new_tree (root : nat) (terminals : list nat) : tree :=
  {| t_nodes := [root]; t_edges := []; t_total := 0%N; t_terminals := terminals;
     t_is_terminal := fold_left (fun s t => insert t s) terminals [] |}.
(** mod.rs:80-92.  True when terminals were added ([ControlFlow::Continue]). *)
Definition extend_step (nodes : list nat) (acc : list nat * list nat) (t : nat) : list nat * list nat :=
  let '(added, is_terminal) := acc in
  if negb (mem t is_terminal) && negb (mem t nodes) then (added ++ [t], insert t is_terminal)
  else (added, insert t is_terminal).
Definition extend_terminals (new : list nat) (tr : tree) : bool * tree :=
  let '(added, is_terminal) := fold_left (extend_step (t_nodes tr)) new ([], t_is_terminal tr) in
  (negb (List.length added =? 0),
   {| t_nodes := t_nodes tr; t_edges := t_edges tr; t_total := t_total tr;
      t_terminals := t_terminals tr ++ added; t_is_terminal := is_terminal |}).
(** mod.rs:94-105 *)
Definition clone_with_new_terminals (other : tree) (new : list nat) : bool * tree :=
  extend_terminals new
    {| t_nodes := t_nodes other; t_edges := t_edges other; t_total := 0%N; t_terminals := []; t_is_terminal := [] |}.
Definition add_node (n : nat) (tr : tree) : tree :=
  {| t_nodes := insert n (t_nodes tr); t_edges := t_edges tr; t_total := t_total tr;
     t_terminals := t_terminals tr; t_is_terminal := t_is_terminal tr |}.
(** An edge with its weight. *)
Definition add_edge (g : graph) (tr : tree) (e : nat) : tree :=
  {| t_nodes := t_nodes tr; t_edges := insert e (t_edges tr); t_total := wrap (t_total tr + weight g e);
     t_terminals := t_terminals tr; t_is_terminal := t_is_terminal tr |}.

(** ** GreedyFLAC *)
(** greedy_flac.rs:211-227 *)
Record flac := {
  f_saturated : list nat;
  f_marked : list nat;             (** marked_or_saturated_edges *)
  f_root_feeding : bits;
  f_feeding : nat -> bits;
  f_rates : nat -> N;
  f_time : Q;
  f_heap : list (nat * Q) }.
Definition new_flac : flac :=
  {| f_saturated := []; f_marked := []; f_root_feeding := []; f_feeding := fun _ => []; f_rates := fun _ => 0%N;
     f_time := 0%Q; f_heap := [] |}.
(** greedy_flac.rs:279-281 *)
Definition reset (st : flac) : flac :=
  {| f_saturated := f_saturated st; f_marked := f_marked st; f_root_feeding := bclear (f_root_feeding st);
     f_feeding := f_feeding st; f_rates := f_rates st; f_time := f_time st; f_heap := f_heap st |}.

Definition upd {A} (f : nat -> A) (x : nat) (a : A) : nat -> A := fun y => if y =? x then a else f y.
(** priority_queue: pushing an item that is there changes its priority. *)
Definition heap_push (e : nat) (t : Q) (h : list (nat * Q)) : list (nat * Q) :=
  (e, t) :: filter (fun x => negb (fst x =? e)) h.
Definition heap_change (e : nat) (f : Q -> Q) (h : list (nat * Q)) : list (nat * Q) :=
  map (fun x => if fst x =? e then (fst x, f (snd x)) else x) h.

(** greedy_flac.rs:411-441: the unmarked incoming edge of least weight, the first of them.  The bound
    to start from is [u16::MAX], so an edge of that weight is never found. *)
Definition better (g : graph) (marked : list nat) (acc : option nat * N) (e : nat) : option nat * N :=
  if negb (mem e marked) && (weight g e <? snd acc)%N then (Some e, weight g e) else acc.
Definition find_next (g : graph) (marked : list nat) (v : nat) : option nat :=
  fst (fold_left (better g marked) (incoming g v) (None, weight_max)).

(** greedy_flac.rs:591-605, the nodes the stack goes through: those from which [u] is reached
    through saturated edges, once for each way.  Fuel bounds the length of a way. *)
Fixpoint above (g : graph) (saturated : list nat) (fuel : nat) (u : nat) : list nat :=
  match fuel with
  | 0 => []
  | S fuel' => u :: flat_map (fun e => above g saturated fuel' (src g e))
                             (rev (filter (fun e => mem e saturated) (incoming g u)))
  end.
(** greedy_flac.rs:347-356, the edges the traversal adds, once for each way. *)
Fixpoint below (g : graph) (saturated : list nat) (fuel : nat) (v : nat) : list nat :=
  match fuel with
  | 0 => []
  | S fuel' => let es := filter (fun e => mem e saturated) (outgoing g v) in
               es ++ flat_map (fun e => below g saturated fuel' (dst g e)) (rev es)
  end.

Inductive control := Continue | Break | FoundSubtree (root : nat).

Definition Q_of (n : N) : Q := inject_Z (Z.of_N n).
Definition with_heap (st : flac) (h : list (nat * Q)) : flac :=
  {| f_saturated := f_saturated st; f_marked := f_marked st; f_root_feeding := f_root_feeding st;
     f_feeding := f_feeding st; f_rates := f_rates st; f_time := f_time st; f_heap := h |}.

(** greedy_flac.rs:505-535: one of the edges that saturate next, [e], at its target [x]. *)
Definition feed (g : graph) (extra : bits) (extra_rate : N) (st : flac) (xe : nat * nat) : flac :=
  let '(x, e) := xe in
  let old := f_rates st x in
  let new := wrap (old + extra_rate) in
  let h := if (old =? 0)%N
           then heap_push e (f_time st + Q_of (weight g e) / Q_of new) (f_heap st)
           else heap_change e (fun q => f_time st + (q - f_time st) * (Q_of old / Q_of new))%Q (f_heap st) in
  {| f_saturated := f_saturated st; f_marked := f_marked st; f_root_feeding := f_root_feeding st;
     f_feeding := upd (f_feeding st) x (bunion (f_feeding st x) extra);
     f_rates := upd (f_rates st) x new; f_time := f_time st; f_heap := h |}.
(** greedy_flac.rs:598-600 *)
Definition next_edges (g : graph) (marked : list nat) (xs : list nat) : list (nat * nat) :=
  flat_map (fun x => match find_next g marked x with Some e => [(x, e)] | None => [] end) xs.
(** greedy_flac.rs:541-552 *)
Definition schedule_next (g : graph) (e v : nat) (st : flac) : flac :=
  match find_next g (f_marked st) v with
  | Some e' => with_heap st (heap_push e' (f_time st + Q_of (weight g e' - weight g e) / Q_of (f_rates st v)) (f_heap st))
  | None => st
  end.

(** greedy_flac.rs:452-555 *)
Definition update_flow_rates (g : graph) (tr : tree) (st : flac) (e : nat) : control * flac :=
  let u := src g e in
  let v := dst g e in
  let st := {| f_saturated := f_saturated st; f_marked := insert e (f_marked st); f_root_feeding := f_root_feeding st;
               f_feeding := f_feeding st; f_rates := f_rates st; f_time := f_time st; f_heap := f_heap st |} in
  if mem v (t_nodes tr) then (Continue, st)
  else if mem u (t_nodes tr) then
    if bdisjoint (f_root_feeding st) (f_feeding st v)
    then (FoundSubtree v,
          {| f_saturated := f_saturated st; f_marked := f_marked st;
             f_root_feeding := bunion (f_root_feeding st) (f_feeding st v);
             f_feeding := f_feeding st; f_rates := f_rates st; f_time := f_time st; f_heap := f_heap st |})
    else (Break, st)
  else
    let xs := above g (f_saturated st) (S (List.length g)) u in
    if existsb (fun x => negb (bdisjoint (f_feeding st v) (f_feeding st x))) xs
    then (Continue, schedule_next g e v st)
    else
      let st' := {| f_saturated := insert e (f_saturated st); f_marked := f_marked st; f_root_feeding := f_root_feeding st;
                    f_feeding := f_feeding st; f_rates := f_rates st; f_time := f_time st; f_heap := f_heap st |} in
      (Continue, schedule_next g e v
                   (fold_left (feed g (f_feeding st v) (f_rates st v)) (next_edges g (f_marked st) xs) st')).

(** greedy_flac.rs:338-356 *)
Definition add_subtree (g : graph) (saturated : list nat) (e v : nat) (tr : tree) : tree :=
  fold_left (fun tr e' => add_node (dst g e') (add_edge g tr e')) (below g saturated (S (List.length g)) v)
            (add_node v (add_edge g tr e)).

(** What a call ends with: a value, a panic, or not at all ([Hang]: the fuel is used up). *)
Inductive outcome (A : Type) := Done (a : A) | Panic | Hang.
Arguments Done {A} a. Arguments Panic {A}. Arguments Hang {A}.

Section Run.
(** [PriorityQueue::pop] *)
Variable pop : list (nat * Q) -> option (nat * Q).

(** greedy_flac.rs:329-361 and 400-404 *)
Fixpoint flow (g : graph) (fuel : nat) (tr : tree) (st : flac) : outcome (tree * flac) :=
  match fuel with
  | 0 => Hang
  | S fuel' =>
      match pop (f_heap st) with
      | None => Done (tr, st)
      | Some (e, t) =>
          let st := {| f_saturated := f_saturated st; f_marked := f_marked st; f_root_feeding := f_root_feeding st;
                       f_feeding := f_feeding st; f_rates := f_rates st; f_time := t;
                       f_heap := filter (fun x => negb (fst x =? e)) (f_heap st) |} in
          let '(c, st) := update_flow_rates g tr st e in
          match c with
          | Break => Done (tr, st)
          | Continue => flow g fuel' tr st
          | FoundSubtree v => flow g fuel' (add_subtree g (f_saturated st) e v tr) st
          end
      end
  end.

(** greedy_flac.rs:369-398 *)
Definition start_terminal (g : graph) (tr : tree) (st : flac) (ix : nat) : outcome flac :=
  match nth_error (t_terminals tr) ix with
  | None => Panic
  | Some t =>
      match find_next g (f_marked st) t with
      | None => Done st
      | Some e =>
          Done {| f_saturated := f_saturated st; f_marked := f_marked st; f_root_feeding := f_root_feeding st;
                  f_feeding := upd (f_feeding st) t (bset (bgrow (f_feeding st t) (List.length (t_terminals tr))) ix);
                  f_rates := upd (f_rates st) t 1%N; f_time := f_time st;
                  f_heap := heap_push e (f_time st + Q_of (weight g e)) (f_heap st) |}
      end
  end.
Fixpoint start_all (g : graph) (tr : tree) (ixs : list nat) (st : flac) : outcome flac :=
  match ixs with
  | [] => Done st
  | ix :: ixs' => match start_terminal g tr st ix with Done st' => start_all g tr ixs' st' | Panic => Panic | Hang => Hang end
  end.
Definition initialize (tr : tree) (st : flac) : flac :=
  {| f_saturated := []; f_marked := []; f_root_feeding := bgrow (f_root_feeding st) (List.length (t_terminals tr));
     f_feeding := fun v => bclear (f_feeding st v); f_rates := fun _ => 0%N; f_time := 0%Q; f_heap := [] |}.

(** greedy_flac.rs:320-366.  True for [ControlFlow::Continue]. *)
Definition run_once (g : graph) (tr : tree) (st : flac) : outcome (bool * tree * flac) :=
  let st := initialize tr st in
  match bzeroes (f_root_feeding st) with
  | [] => Done (false, tr, st)
  | ixs =>
      match start_all g tr ixs st with
      | Done st => match flow g (S (List.length g)) tr st with
                   | Done (tr, st) => Done (negb (bfull (f_root_feeding st)), tr, st)
                   | Panic => Panic
                   | Hang => Hang
                   end
      | Panic => Panic
      | Hang => Hang
      end
  end.
(** greedy_flac.rs:266-277 *)
Fixpoint run (g : graph) (fuel : nat) (tr : tree) (st : flac) : outcome (tree * flac) :=
  match fuel with
  | 0 => Hang
  | S fuel' => match run_once g tr st with
               | Done (true, tr, st) => run g fuel' tr st
               | Done (false, tr, st) => Done (tr, st)
               | Panic => Panic
               | Hang => Hang
               end
  end.
End Run.

(** The pop of the examples: the first of the entries with the least time. *)
Fixpoint pop_min (h : list (nat * Q)) : option (nat * Q) :=
  match h with
  | [] => None
  | (e, t) :: h' => match pop_min h' with
                    | Some (e', t') => if Qle_bool t t' then Some (e, t) else Some (e', t')
                    | None => Some (e, t)
                    end
  end.
