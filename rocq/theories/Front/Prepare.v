(** Model of the preparation of operations around the cache of operations.
    Source: crates/engine/src/prepare/{mod.rs (28-34, 57-108), with_cache.rs, without_cache.rs},
    crates/engine/src/engine.rs (227-256: warm).
    Simplifications: keys, documents, operations, variables and plans are numbers; reading, binding, the cost, the solver and
    the planner are oracles.  The solver adds to the operation only names of response keys, which the oracles on operations
    do not look at.  [ctx] is what the planner looks at besides (token, headers, contract).  Attributes for metrics are left out. *)
From Coq Require Import List Bool Arith NArith.
Import ListNotations.
Local Open Scope nat_scope.
Local Open Scope list_scope.

Record engine := {
  g_limit : N;                                       (* executable_document_limit_bytes *)
  g_size : nat -> N;
  g_parse : nat -> nat -> nat + nat;                 (* Operation::parse: key (operation name), document *)
  g_mutation : nat -> bool;
  g_bind : nat -> nat -> nat + nat;                  (* Variables::bind: operation, raw variables *)
  g_cost : nat -> nat -> nat + nat;                  (* compute_and_validate_complexity: operation, variables *)
  g_solve : nat -> nat -> nat -> nat + nat;          (* solve: key, document, operation *)
  g_plan : nat -> nat * nat -> nat -> nat + nat      (* plan: ctx, cached operation, variables *)
}.
(** CachedOperation: operation and query plan *)
Notation cached := (nat * nat)%type (only parsing).
Inductive result :=
| NoDocument (e : nat)                                (* refused, 400 *)
| LoadError (e : nat) | TooLarge | ParseErrors (e : nat)
| MutationRefused                                     (* refused, 405 *)
| VariableErrors (e : nat) | TooComplex (e : nat) | SolveError (e : nat) | PlanError (e : nat)
| Prepared (c : cached) (plan variables cost : nat).

Section Prepare.
Variable g : engine.
(** with_cache.rs *)
Definition with_cache (c : cached) (vars : nat) (can_mutate : bool) (ctx : nat) : result :=
  if g_mutation g (fst c) && negb can_mutate then MutationRefused
  else match g_bind g (fst c) vars with
       | inl e => VariableErrors e
       | inr v =>
           match g_cost g (fst c) v with
           | inl e => TooComplex e
           | inr cost =>
               match g_plan g ctx c v with inl e => PlanError e | inr plan => Prepared c plan v cost end
           end
       end.
(** without_cache.rs *)
Definition without_cache (key doc vars : nat) (can_mutate : bool) (ctx : nat) : result :=
  if N.leb (g_limit g) (g_size g doc) then TooLarge
  else match g_parse g key doc with
       | inl e => ParseErrors e
       | inr op =>
           if g_mutation g op && negb can_mutate then MutationRefused
           else match g_bind g op vars with
                | inl e => VariableErrors e
                | inr v =>
                    match g_cost g op v with
                    | inl e => TooComplex e
                    | inr cost =>
                        match g_solve g key doc op with
                        | inl e => SolveError e
                        | inr s =>
                            match g_plan g ctx (op, s) v with inl e => PlanError e | inr plan => Prepared (op, s) plan v cost end
                        end
                    end
                end
       end.

(** The cache, and the insertions that are still to be made in the background. *)
Record state := { s_cache : list (nat * cached); s_pending : list (nat * cached) }.
Definition init : state := {| s_cache := []; s_pending := [] |}.
Definition lookup (s : state) (key : nat) : option cached :=
  option_map snd (find (fun e => fst e =? key) (s_cache s)).

Inductive event :=
| Ask (key : nat + nat) (loaded : nat + nat) (vars : nat) (can_mutate : bool) (ctx : nat)  (* extract_operation_document; into_operation_document *)
| Warm (key doc : nat)
| Stored (i : nat)                                     (* an insertion is made *)
| Dropped (i : nat)                                    (* or it is not *)
| Evict (key : nat).
Fixpoint remove_nth {A} (i : nat) (l : list A) : list A :=
  match l, i with [], _ => [] | _ :: l, 0 => l | x :: l, S i => x :: remove_nth i l end.
Definition insert (k : nat) (c : cached) (l : list (nat * cached)) : list (nat * cached) := (k, c) :: l.
Definition step (s : state) (e : event) : state * option result :=
  match e with
  | Ask (inl e) _ _ _ _ => (s, Some (NoDocument e))
  | Ask (inr key) loaded vars can_mutate ctx =>
      match lookup s key with
      | Some c => (s, Some (with_cache c vars can_mutate ctx))
      | None =>
          match loaded with
          | inl e => (s, Some (LoadError e))
          | inr doc =>
              let r := without_cache key doc vars can_mutate ctx in
              (match r with
               | Prepared c _ _ _ => {| s_cache := s_cache s; s_pending := s_pending s ++ [(key, c)] |}
               | _ => s
               end, Some r)
          end
      end
  | Warm key doc =>
      (* engine.rs:240-255, mod.rs:29-33 *)
      match g_parse g key doc with
      | inl _ => (s, None)
      | inr op => match g_solve g key doc op with
                  | inl _ => (s, None)
                  | inr q => ({| s_cache := insert key (op, q) (s_cache s); s_pending := s_pending s |}, None)
                  end
      end
  | Stored i =>
      match nth_error (s_pending s) i with
      | Some (k, c) => ({| s_cache := insert k c (s_cache s); s_pending := remove_nth i (s_pending s) |}, None)
      | None => (s, None)
      end
  | Dropped i => ({| s_cache := s_cache s; s_pending := remove_nth i (s_pending s) |}, None)
  | Evict key => ({| s_cache := filter (fun e => negb (fst e =? key)) (s_cache s); s_pending := s_pending s |}, None)
  end.
Definition run (s : state) (h : list event) : state := fold_left (fun s e => fst (step s e)) h s.
End Prepare.
