(** The pool of instances of an extension, and what its users do with an instance
    (crates/wasi-component-loader/src/extension/pool.rs; deadpool 0.12's managed pool, without time outs).

    An event is what one user does up to its next await; the log has what an observer of the pool sees.
    Simplifications: instances are only their two flags; what a guest returns is whether the session goes on; the first
    [get] of [Pool::new] (pool.rs:41) is a session like others; the [debug_assert!] of [wasmsafe!] isn't there (release builds). *)
From Coq Require Import List Bool PeanoNat.
Import ListNotations.

(** pool.rs:96-100 *)
Record instance := { poisoned : bool; recyclable : bool }.

Inductive outcome :=
| Returned (goes_on : bool)
| Trapped      (** a wasmtime error *)
| Cancelled.   (** the future was dropped *)

(** Who takes an instance: one call (hooks, authentication, authorization, resolvers), a subscription
    (runtime/resolver/mod.rs:118-180, resolver/subscription), one of an older extension (runtime/field_resolver.rs:55-118, runtime/subscription). *)
Inductive kind := Simple | Sub | Old.

Inductive call := CSimple | CCreate | CNext | CDrop | CKey | CResolve.

Inductive phase := PSimple | PCreate | PStream | PDrop | PKey | PResolve | POldStream | POver.

Record session := { s_phase : phase; s_inst : nat }.

Record state := { instances : list instance; idle : list nat; sessions : list session }.

Inductive entry :=
| Created (i : nat)
| Destroyed (i : nat)
| Handed (h i : nat) (k : kind)
| Called (h i : nat) (c : call) (o : outcome)
| Released (h i : nat).

Definition start : state := {| instances := []; idle := []; sessions := [] |}.

Fixpoint update {B} (i : nat) (x : B) (l : list B) : list B :=
  match l, i with
  | [], _ => []
  | _ :: l, O => x :: l
  | y :: l, S i => y :: update i x l
  end.

(** [Manager::create] (pool.rs:71-77). *)
Definition fresh : instance := {| poisoned := false; recyclable := true |}.

(** [Manager::recycle] (pool.rs:79-93). *)
Definition recycle (x : instance) : bool := negb (poisoned x || negb (recyclable x)).

(** deadpool's [timeout_get]: the instances that were given back first are tried first, those that can't be recycled are dropped. *)
Fixpoint take (xs : list instance) (ids : list nat) : list nat * option nat * list nat :=
  match ids with
  | [] => ([], None, [])
  | i :: ids =>
    if match nth_error xs i with Some x => recycle x | None => false end then ([], Some i, ids)
    else let '(dead, o, rest) := take xs ids in (i :: dead, o, rest)
  end.

Definition active (s : session) : bool := match s_phase s with POver => false | _ => true end.

Definition held (ss : list session) : list nat := map s_inst (filter active ss).

Definition begins (k : kind) : phase := match k with Simple => PSimple | Sub => PCreate | Old => PKey end.

(** [wasmsafe!] (pool.rs:117-139). *)
Definition wasmsafe (x : instance) (o : outcome) : instance :=
  match o with
  | Returned _ => {| poisoned := false; recyclable := recyclable x |}
  | Trapped | Cancelled => {| poisoned := true; recyclable := recyclable x |}
  end.

Definition call_of (p : phase) : call :=
  match p with
  | PSimple | POver => CSimple
  | PCreate => CCreate
  | PStream | POldStream => CNext
  | PDrop => CDrop
  | PKey => CKey
  | PResolve => CResolve
  end.

(** [instance.recyclable = false] (resolver/mod.rs:150, field_resolver.rs:80). *)
Definition prepare (p : phase) (x : instance) : instance :=
  match p with
  | PCreate | PKey => {| poisoned := poisoned x; recyclable := false |}
  | _ => x
  end.

(** [instance.recyclable = true] after [drop_subscription], whatever it gave (resolver/subscription/unique.rs:50, 57; dedup.rs:76, 86, 102). *)
Definition finish (p : phase) (o : outcome) (x : instance) : instance :=
  match p, o with
  | _, Cancelled => x
  | PDrop, _ => {| poisoned := poisoned x; recyclable := true |}
  | _, _ => x
  end.

(** Where the session goes on ([POver]: the instance is dropped). *)
Definition continue (p : phase) (o : outcome) : phase :=
  match p, o with
  | _, Cancelled => POver
  | PCreate, Returned true => PStream      (* resolver/mod.rs:157-170 *)
  | PStream, Returned true => PStream      (* unique.rs:36-45 *)
  | PStream, _ => PDrop                    (* unique.rs:46-59 *)
  | PKey, Returned true => PResolve        (* field_resolver.rs:92-117 *)
  | PResolve, Returned true => POldStream  (* subscription/unique.rs:34 *)
  | POldStream, Returned false => POver    (* subscription/unique.rs:50-53 *)
  | POldStream, _ => POldStream            (* subscription/unique.rs:43-49, 54-57 *)
  | _, _ => POver
  end.

Inductive event :=
| Get (k : kind)
| GetFails            (** instantiating fails *)
| Call (h : nat) (o : outcome)
| Leave (h : nat)     (** the user is dropped between two calls *)
| Abandon (h : nat).  (** a shared subscription has no clients anymore (resolver/subscription/dedup.rs:94-104) *)

(** deadpool's [Object::drop]. *)
Definition release (h i : nat) (p : phase) (s : state) : list nat * list entry :=
  match p with POver => (idle s ++ [i], [Released h i]) | _ => (idle s, []) end.

Section Pool.
  Variable max : nat.

  Definition step (s : state) (e : event) : option (state * list entry) :=
    match e with
    | Get k =>
      if Nat.ltb (List.length (held (sessions s))) max then
        let h := List.length (sessions s) in
        let '(dead, o, rest) := take (instances s) (idle s) in
        match o with
        | Some i =>
          Some ({| instances := instances s; idle := rest; sessions := sessions s ++ [{| s_phase := begins k; s_inst := i |}] |},
                map Destroyed dead ++ [Handed h i k])
        | None =>
          let i := List.length (instances s) in
          Some ({| instances := instances s ++ [fresh]; idle := rest; sessions := sessions s ++ [{| s_phase := begins k; s_inst := i |}] |},
                map Destroyed dead ++ [Created i; Handed h i k])
        end
      else None
    | GetFails =>
      if Nat.ltb (List.length (held (sessions s))) max then
        let '(dead, o, rest) := take (instances s) (idle s) in
        match o with
        | Some _ => None
        | None => Some ({| instances := instances s; idle := rest; sessions := sessions s |}, map Destroyed dead)
        end
      else None
    | Call h o =>
      match nth_error (sessions s) h with
      | Some {| s_phase := p; s_inst := i |} =>
        match p, nth_error (instances s) i with
        | POver, _ | _, None => None
        | _, Some x =>
          let x := finish p o (wasmsafe (prepare p x) o) in
          let '(idle, l) := release h i (continue p o) s in
          Some ({| instances := update i x (instances s); idle := idle;
                   sessions := update h {| s_phase := continue p o; s_inst := i |} (sessions s) |},
                Called h i (call_of p) o :: l)
        end
      | None => None
      end
    | Leave h =>
      match nth_error (sessions s) h with
      | Some {| s_phase := p; s_inst := i |} =>
        match p with
        | POver | PDrop => None
        | _ =>
          let '(idle, l) := release h i POver s in
          Some ({| instances := instances s; idle := idle; sessions := update h {| s_phase := POver; s_inst := i |} (sessions s) |}, l)
        end
      | None => None
      end
    | Abandon h =>
      match nth_error (sessions s) h with
      | Some {| s_phase := PStream; s_inst := i |} =>
        Some ({| instances := instances s; idle := idle s; sessions := update h {| s_phase := PDrop; s_inst := i |} (sessions s) |}, [])
      | _ => None
      end
    end.

  Fixpoint run (es : list event) (s : state) : option (state * list entry) :=
    match es with
    | [] => Some (s, [])
    | e :: es =>
      match step s e with
      | Some (s, l) => match run es s with Some (s, l') => Some (s, l ++ l') | None => None end
      | None => None
      end
    end.
End Pool.
