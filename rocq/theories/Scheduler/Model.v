(** Model of the execution of the plans and response modifiers of an operation.
    Sources: crates/engine/src/prepare/operation_plan/builder.rs, [finalize] (71-125);
    crates/engine/src/execution/operation/state.rs (33-57, 62-86, 116-145);
    crates/engine/src/execution/operation/coordinator.rs, [run] (268-318), [ingest_execution_result]
    (342-383) and [create_plan_execution_future] (385-424).
    Simplifications: plan [i] is the plan of query partition [i] (builder.rs:191-216 creates them in that
    order); what a subgraph answers is reduced to whether the response part was ingested as data
    ([ok]), and the content of the response to whether a plan finds parent objects ([inputs]), both
    chosen by the environment; ingestion of one result is atomic: it owns the execution state, results
    that arrive meanwhile are queued.  A decrement below zero is [None] (it panics or wraps around). *)
From Coq Require Import List Arith NArith Bool.
Import ListNotations.

Inductive exec := P (p : nat) | M (m : nat).
Definition exec_eqb (a b : exec) : bool :=
  match a, b with P x, P y => x =? y | M x, M y => x =? y | _, _ => false end.

(** What the builder knows before [finalize]: number of plans and of response modifiers, partition of
    each modifier, dependencies on partitions, order of the mutation partitions. *)
Record description :=
  { d_plans : nat;
    d_modifiers : nat;
    d_partition_modifiers : list (nat * nat);
    d_dependencies : list (exec * nat);
    d_mutation_order : list nat }.

(** [children_ids] and [parent_count] of every plan and modifier. *)
Record graph := { g_children : exec -> list exec; g_count : exec -> N }.
Definition empty : graph := {| g_children := fun _ => []; g_count := fun _ => 0%N |}.
Definition add_edge (g : graph) (a b : exec) : graph :=
  {| g_children := fun x => if exec_eqb x a then g_children g x ++ [b] else g_children g x;
     g_count := fun x => if exec_eqb x b then (g_count g x + 1)%N else g_count g x |}.

(** id-newtypes/src/many.rs:43-54: binary search for the first pair, then while the key is equal. *)
Fixpoint skip_below (k : nat) (l : list (nat * nat)) : list (nat * nat) :=
  match l with [] => [] | x :: l' => if fst x <? k then skip_below k l' else l end.
Fixpoint take_equal (k : nat) (l : list (nat * nat)) : list nat :=
  match l with [] => [] | x :: l' => if fst x =? k then snd x :: take_equal k l' else [] end.
Definition find_all (k : nat) (l : list (nat * nat)) : list nat := take_equal k (skip_below k l).
(** The sort of builder.rs:72. *)
Definition pair_leb (a b : nat * nat) : bool := (fst a <? fst b) || ((fst a =? fst b) && (snd a <=? snd b)).
Fixpoint insert_pair (p : nat * nat) (l : list (nat * nat)) : list (nat * nat) :=
  match l with [] => [p] | x :: l' => if pair_leb p x then p :: l else x :: insert_pair p l' end.
Definition sort_pairs (l : list (nat * nat)) : list (nat * nat) := fold_right insert_pair [] l.
(** itertools [tuple_windows] *)
Fixpoint windows (l : list nat) : list (nat * nat) :=
  match l with a :: ((b :: _) as l') => (a, b) :: windows l' | _ => [] end.

(** builder.rs:73-80 *)
Definition add_modifier (g : graph) (pm : nat * nat) : graph := add_edge g (P (fst pm)) (M (snd pm)).
(** builder.rs:84-102 *)
Definition add_dependency (modifiers : list (nat * nat)) (g : graph) (dep : exec * nat) : graph :=
  let g := add_edge g (P (snd dep)) (fst dep) in
  match fst dep with
  | P q => fold_left (fun g m => add_edge g (M m) (P q)) (find_all (snd dep) modifiers) g
  | M _ => g
  end.
(** builder.rs:104-122 *)
Definition add_order (g : graph) (w : nat * nat) : graph := add_edge g (P (fst w)) (P (snd w)).
Definition finalize (d : description) : graph :=
  let modifiers := sort_pairs (d_partition_modifiers d) in
  let g := fold_left add_modifier modifiers empty in
  let g := fold_left (add_dependency modifiers) (d_dependencies d) g in
  fold_left add_order (windows (d_mutation_order d)) g.

(** What can be observed: a plan is started, or not because it has no parent object; a result is ingested
    as data or as a failure; a response modifier is executed. *)
Inductive event := Started (p : nat) | Skipped (p : nat) | Succeeded (p : nat) | Failed (p : nat) | Modified (m : nat).
Record state := { s_count : exec -> N; s_running : list nat; s_queue : list nat; s_log : list event }.

(** state.rs:117-145; new executables in the order in which they are pushed. *)
Fixpoint next_executables (count : exec -> N) (children : list exec) : option ((exec -> N) * list exec) :=
  match children with
  | [] => Some (count, [])
  | x :: l =>
      if (count x =? 0)%N then None
      else
        let c := (count x - 1)%N in
        let count' := fun y => if exec_eqb y x then c else count y in
        match next_executables count' l with
        | None => None
        | Some (count'', ready) => Some (count'', if (c =? 0)%N then x :: ready else ready)
        end
  end.

(** coordinator.rs:385-424 *)
Definition start_plan (inputs : nat -> bool) (s : state) (p : nat) : state :=
  if inputs p
  then {| s_count := s_count s; s_running := s_running s ++ [p]; s_queue := s_queue s; s_log := s_log s ++ [Started p] |}
  else {| s_count := s_count s; s_running := s_running s; s_queue := s_queue s; s_log := s_log s ++ [Skipped p] |}.

(** coordinator.rs:364-380; the head of the list is the top of the stack. *)
Fixpoint work (fuel : nat) (g : graph) (inputs : nat -> bool) (s : state) (stack : list exec) : option state :=
  match stack with
  | [] => Some s
  | x :: stack =>
      match fuel with
      | O => None
      | S fuel =>
          match x with
          | P p => work fuel g inputs (start_plan inputs s p) stack
          | M m =>
              match next_executables (s_count s) (g_children g (M m)) with
              | None => None
              | Some (count, ready) =>
                  work fuel g inputs
                    {| s_count := count; s_running := s_running s; s_queue := s_queue s; s_log := s_log s ++ [Modified m] |}
                    (rev ready ++ stack)
              end
          end
      end
  end.

(** coordinator.rs:342-362.  Fuel: a bound on the number of executables. *)
Definition ingest (d : description) (g : graph) (s : state) (p : nat) (ok : bool) (inputs : nat -> bool) : option state :=
  if ok then
    match next_executables (s_count s) (g_children g (P p)) with
    | None => None
    | Some (count, ready) =>
        work (d_plans d + d_modifiers d) g inputs
          {| s_count := count; s_running := s_running s; s_queue := s_queue s; s_log := s_log s ++ [Succeeded p] |}
          (rev ready)
    end
  else Some {| s_count := s_count s; s_running := s_running s; s_queue := s_queue s; s_log := s_log s ++ [Failed p] |}.

(** The environment finishes a request, or the loop of [run] ingests the oldest result. *)
Inductive op := Finish (p : nat) | Ingest (ok : bool) (inputs : nat -> bool).
Fixpoint remove_one (p : nat) (l : list nat) : list nat :=
  match l with [] => [] | x :: l' => if x =? p then l' else x :: remove_one p l' end.
Definition step (d : description) (g : graph) (s : state) (o : op) : option state :=
  match o with
  | Finish p =>
      if existsb (Nat.eqb p) (s_running s)
      then Some {| s_count := s_count s; s_running := remove_one p (s_running s); s_queue := s_queue s ++ [p]; s_log := s_log s |}
      else Some s
  | Ingest ok inputs =>
      match s_queue s with
      | [] => Some s
      | p :: queue =>
          ingest d g {| s_count := s_count s; s_running := s_running s; s_queue := queue; s_log := s_log s |} p ok inputs
      end
  end.
Fixpoint steps (d : description) (g : graph) (s : state) (ops : list op) : option state :=
  match ops with
  | [] => Some s
  | o :: ops => match step d g s o with None => None | Some s => steps d g s ops end
  end.

(** state.rs:76-85 *)
Definition executable_plans (d : description) (count : exec -> N) : list nat :=
  filter (fun p => (count (P p) =? 0)%N) (seq 0 (d_plans d)).
(** coordinator.rs:270-278 *)
Definition start_all (d : description) (s : state) (inputs : nat -> bool) : state :=
  fold_left (start_plan inputs) (executable_plans d (s_count s)) s.
(** A query or mutation. *)
Definition run (d : description) (inputs : nat -> bool) (ops : list op) : option state :=
  let g := finalize d in
  steps d g (start_all d {| s_count := g_count g; s_running := []; s_queue := []; s_log := [] |} inputs) ops.
(** state.rs:62-74: [None] if there is not exactly one root plan.  One event of a subscription starts with
    the result of the subscription plan. *)
Definition usize_max : N := 18446744073709551615.
Definition run_event (d : description) (inputs : nat -> bool) (ops : list op) : option state :=
  let g := finalize d in
  match executable_plans d (g_count g) with
  | [p] =>
      let count := fun x => if exec_eqb x (P p) then usize_max else g_count g x in
      steps d g (start_all d {| s_count := count; s_running := []; s_queue := [p]; s_log := [] |} inputs) ops
  | _ => None
  end.
