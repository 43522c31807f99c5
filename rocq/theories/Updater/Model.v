(** Model of the planner's loop around the search for a tree: the weights of edges with requirements and the
    terminals that requirements add.
    Source: crates/engine/query-solver/src/solve/{updater.rs (37-320), solver.rs (72-140), input/mod.rs (45-79)}.
    Simplifications: ranges of ids are the lists they stand for.  The bit of the root in the tree's set of terminals
    (input/builder/mod.rs:163) is left out: the root is a node of the tree, which has the same effect where the set is read
    (steiner_tree/mod.rs:84).  Tracing and debug_assert are left out. *)
From Coq Require Import QArith NArith List Bool Arith.
From Verif.Steiner Require Import Model.
Import ListNotations.
Local Open Scope nat_scope.
Local Open Scope list_scope.

(** FreeRequirementByNode, FreeRequirementByEdge: [r_of] is the node or edge. *)
Record free := { r_of : nat; r_nodes : list nat; r_space : list nat }.
(** RequirementsByEdge *)
Record costly := {
  c_parents : list nat;            (* unavoidable_parent_edge_ids *)
  c_nodes : list nat;              (* required_node_ids *)
  c_space : list nat;              (* required_space_node_ids *)
  c_dependent : list (nat * N)     (* dependent_edge_with_inherent_weight_ids *)
}.
Record requirements := { by_node : list free; by_edge : list free; with_cost : list costly }.

(** What updater.rs changes.  [u_changed] is has_updated_weights. *)
Record state := {
  u_graph : graph;
  u_requirements : requirements;
  u_new : list nat;                (* tmp_new_terminals *)
  u_new_space : list nat;          (* tmp_new_space_terminals *)
  u_flac : flac;                   (* tmp_flac *)
  u_changed : bool
}.
Definition with_requirements (st : state) (r : requirements) : state :=
  {| u_graph := u_graph st; u_requirements := r; u_new := u_new st; u_new_space := u_new_space st; u_flac := u_flac st; u_changed := u_changed st |}.
(** updater.rs:147-158 *)
Definition extend (nodes space : list nat) (st : state) : state :=
  {| u_graph := u_graph st; u_requirements := u_requirements st; u_new := u_new st ++ nodes; u_new_space := u_new_space st ++ space;
     u_flac := u_flac st; u_changed := u_changed st |}.

(** Vec::swap_remove: the last element comes in the place of the one that is removed. *)
Fixpoint replace {A} (i : nat) (x : A) (l : list A) : list A :=
  match l, i with
  | [], _ => []
  | _ :: l, O => x :: l
  | y :: l, S i => y :: replace i x l
  end.
Definition swap_remove {A} (i : nat) (l : list A) : option (list A) :=
  match rev l with
  | [] => None
  | x :: before =>
      if i <? List.length l then Some (if S i =? List.length l then rev before else replace i x (rev before)) else None
  end.

(** Graph::index_mut *)
Definition set_weight (g : graph) (e : nat) (w : N) : graph :=
  match nth_error g e with
  | Some ed => replace e {| e_src := e_src ed; e_dst := e_dst ed; e_weight := w |} g
  | None => g
  end.
(** mem::replace and the comparison of 216-217 and 262-263.  [None]: no such edge, a panic. *)
Definition put_weight (st : state) (e : nat) (w : N) : option state :=
  match nth_error (u_graph st) e with
  | None => None
  | Some ed =>
      Some {| u_graph := set_weight (u_graph st) e w; u_requirements := u_requirements st; u_new := u_new st; u_new_space := u_new_space st;
              u_flac := u_flac st; u_changed := u_changed st || negb (N.eqb (e_weight ed) w) |}
  end.
Fixpoint put_weights (l : list (nat * N)) (st : state) : option state :=
  match l with
  | [] => Some st
  | (e, w) :: l => match put_weight st e w with Some st => put_weights l st | None => None end
  end.

Section Updater.
(** The queue of the search, as in Steiner/Model.v, and how often a run may repeat itself: while loops that
    don't end within it count as [Hang]. *)
Variable pop : list (nat * Q) -> option (nat * Q).
Variable limit : nat.

(** 169-182.  [fuel]: the length of the list. *)
Fixpoint nodes_loop (tr : tree) (fuel i : nat) (st : state) : outcome state :=
  match nth_error (by_node (u_requirements st)) i with
  | None => Done st
  | Some r =>
      match fuel with
      | O => Hang
      | S fuel =>
          if mem (r_of r) (t_nodes tr) then
            let st := extend (r_nodes r) (r_space r) st in
            match swap_remove i (by_node (u_requirements st)) with
            | None => Panic
            | Some l => nodes_loop tr fuel i (with_requirements st {| by_node := l; by_edge := by_edge (u_requirements st); with_cost := with_cost (u_requirements st) |})
            end
          else nodes_loop tr fuel (S i) st
      end
  end.
(** 184-197.  What is removed is an element of the other list. *)
Fixpoint edges_loop (tr : tree) (fuel i : nat) (st : state) : outcome state :=
  match nth_error (by_edge (u_requirements st)) i with
  | None => Done st
  | Some r =>
      match fuel with
      | O => Hang
      | S fuel =>
          if mem (r_of r) (t_edges tr) then
            let st := extend (r_nodes r) (r_space r) st in
            match swap_remove i (by_node (u_requirements st)) with
            | None => Panic
            | Some l => edges_loop tr fuel i (with_requirements st {| by_node := l; by_edge := by_edge (u_requirements st); with_cost := with_cost (u_requirements st) |})
            end
          else edges_loop tr fuel (S i) st
      end
  end.

(** 288-319.  [None]: edge_endpoints of no edge, a panic. *)
Fixpoint take_parents (g : graph) (parents : list nat) (tr : tree) : option tree :=
  match parents with
  | [] => Some tr
  | e :: parents =>
      match nth_error g e with
      | None => None
      | Some ed =>
          take_parents g parents
            {| t_nodes := insert (e_dst ed) (t_nodes tr); t_edges := insert e (t_edges tr); t_total := t_total tr;
               t_terminals := t_terminals tr; t_is_terminal := t_is_terminal tr |}
      end
  end.
Definition estimate (g : graph) (tr : tree) (parents nodes : list nat) (fl : flac) : outcome (N * flac) :=
  let fl := reset fl in
  let '(more, tmp) := clone_with_new_terminals tr nodes in
  if more then
    match take_parents g parents tmp with
    | None => Panic
    | Some tmp =>
        match run pop g limit tmp fl with
        | Done (tmp, fl) => Done (t_total tmp, fl)
        | Panic => Panic
        | Hang => Hang
        end
    end
  else Done (0%N, fl).

(** 199-268.  [fuel]: the length of the list. *)
Fixpoint costly_loop (tr : tree) (fuel i : nat) (st : state) : outcome state :=
  match nth_error (with_cost (u_requirements st)) i with
  | None => Done st
  | Some r =>
      match fuel with
      | O => Hang
      | S fuel =>
          if existsb (fun ew => mem (fst ew) (t_edges tr)) (c_dependent r) then
            match put_weights (filter (fun ew => negb (mem (fst ew) (t_edges tr))) (c_dependent r)) st with
            | None => Panic
            | Some st =>
                let st := extend (c_nodes r) (c_space r) st in
                match swap_remove i (with_cost (u_requirements st)) with
                | None => Panic
                | Some l => costly_loop tr fuel i (with_requirements st {| by_node := by_node (u_requirements st); by_edge := by_edge (u_requirements st); with_cost := l |})
                end
            end
          else
            match c_nodes r with
            | [] => costly_loop tr fuel (S i) st
            | _ :: _ =>
                match estimate (u_graph st) tr (c_parents r) (c_nodes r) (u_flac st) with
                | Panic => Panic
                | Hang => Hang
                | Done (w, fl) =>
                    match put_weights (map (fun ew => (fst ew, wrap (snd ew + w))) (c_dependent r))
                      {| u_graph := u_graph st; u_requirements := u_requirements st; u_new := u_new st; u_new_space := u_new_space st; u_flac := fl; u_changed := u_changed st |} with
                    | None => Panic
                    | Some st => costly_loop tr fuel (S i) st
                    end
                end
            end
      end
  end.

(** Outcomes one after the other. *)
Definition bind {A B} (o : outcome A) (f : A -> outcome B) : outcome B :=
  match o with Done a => f a | Panic => Panic | Hang => Hang end.
(** 168-269 *)
Definition generate (tr : tree) (st : state) : outcome state :=
  bind (nodes_loop tr (List.length (by_node (u_requirements st))) 0 st) (fun st =>
  bind (edges_loop tr (List.length (by_edge (u_requirements st)) + List.length (by_node (u_requirements st))) 0 st) (fun st =>
  costly_loop tr (List.length (with_cost (u_requirements st))) 0 st)).

(** 121-132.  [n]: the iterations that may follow.  The number of iterations, or [None] for
    RequirementCycleDetected. *)
Fixpoint iterate (tr : tree) (independent : bool) (n i : nat) (st : state) : outcome (option nat * state) :=
  bind (generate tr st) (fun st =>
  let changed := u_changed st in
  let st := {| u_graph := u_graph st; u_requirements := u_requirements st; u_new := u_new st; u_new_space := u_new_space st; u_flac := u_flac st; u_changed := false |} in
  if negb changed || independent then Done (Some (S i), st)
  else match n with O => Done (None, st) | S n => iterate tr independent n (S i) st end).

(** The whole: with the tree, its search, the independence of requirements (None: not known yet) and the terminals
    in the space of solutions. *)
Record solver := {
  s_state : state;
  s_tree : tree;
  s_flac : flac;
  s_independent : option bool;
  s_space : list nat
}.
Inductive answer := Ok (more : bool) | CycleDetected.
(** 119-145.  [Ok true] for ControlFlow::Continue. *)
Definition update (s : solver) : outcome (answer * solver) :=
  bind (iterate (s_tree s) (match s_independent s with Some b => b | None => false end) 100 0 (s_state s)) (fun r =>
  let '(n, st) := r in
  match n with
  | None => Done (CycleDetected, s)
  | Some n =>
      let '(more, tr) := extend_terminals (u_new st) (s_tree s) in
      Done (Ok more,
        {| s_state := {| u_graph := u_graph st; u_requirements := u_requirements st; u_new := []; u_new_space := []; u_flac := u_flac st; u_changed := u_changed st |};
           s_tree := tr; s_flac := s_flac s;
           s_independent := match s_independent s with Some b => Some b | None => Some (n =? 2) end;
           s_space := s_space s ++ u_new_space st |})
  end).

(** solver.rs:115-140 *)
Fixpoint execute (fuel : nat) (s : solver) : outcome (option solver) :=
  match fuel with
  | O => Hang
  | S fuel =>
      bind (run_once pop (u_graph (s_state s)) (s_tree s) (s_flac s)) (fun r =>
      let '(growth, tr, fl) := r in
      bind (update {| s_state := s_state s; s_tree := tr; s_flac := fl; s_independent := s_independent s; s_space := s_space s |}) (fun a =>
      match a with
      | (CycleDetected, _) => Done None
      | (Ok more, s) => if negb more && negb growth then Done (Some s) else execute fuel s
      end))
  end.

(** solver.rs:72-104, updater.rs:38-62; [None] for an error. *)
Definition start (g : graph) (root : nat) (terminals space : list nat) (r : requirements) : solver :=
  {| s_state := {| u_graph := g; u_requirements := r; u_new := []; u_new_space := []; u_flac := new_flac; u_changed := false |};
     s_tree := new_tree root terminals; s_flac := new_flac; s_independent := None; s_space := space |}.
Definition solve (fuel : nat) (g : graph) (root : nat) (terminals space : list nat) (r : requirements) : outcome (option solver) :=
  let s := start g root terminals space r in
  match terminals with
  | [] => Done (Some s)
  | _ =>
      match with_cost r with
      | [] => execute fuel {| s_state := s_state s; s_tree := s_tree s; s_flac := s_flac s; s_independent := Some true; s_space := s_space s |}
      | _ => bind (update s) (fun a => match a with (CycleDetected, _) => Done None | (Ok _, s) => execute fuel s end)
      end
  end.
End Updater.
